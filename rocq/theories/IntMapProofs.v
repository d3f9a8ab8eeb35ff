(** Proofs about the integer tables: linear probing with at most three quarters of the slots taken
    behaves as a finite map. *)
From Coq Require Import ZArith List Lia.
From stdpp Require Import list gmap.
From Verif Require Import MachInt IntMapModel.
Open Scope Z_scope.

Section table.
  Context {V : Type} (zero : V) (hash : Z -> Z).
  Implicit Types t : list (Z * V).

  (** Slot [p] holds the entry [(k, v)]. *)
  Definition holds t (p : nat) (k : Z) (v : V) : Prop := t !! p = Some (k, v).
  Definition taken t (p : nat) : Prop := exists k v, holds t p k v /\ k <> EMPTY.
  Definition filled t : nat := length (List.filter (fun e => negb (e.1 =? EMPTY)) t).

  (** The shape of a table of [2 ^ b] slots: keys are unique and every slot between the home of a key
      and its place is taken. *)
  Record wf (b : nat) t : Prop := Wf {
    wf_len : length t = (2 ^ b)%nat;
    wf_uniq : forall p q k v w, holds t p k v -> holds t q k w -> k <> EMPTY -> p = q;
    wf_reach : forall p k v, holds t p k v -> k <> EMPTY ->
      exists d, (d < 2 ^ b)%nat /\ p = ((slot hash (2 ^ b - 1) k + d) mod 2 ^ b)%nat /\
        forall e, (e < d)%nat -> taken t ((slot hash (2 ^ b - 1) k + e) mod 2 ^ b) }.

  Lemma pow2_pos b : (0 < 2 ^ b)%nat.
  Proof. apply Nat.neq_0_lt_0, Nat.pow_nonzero. lia. Qed.
  Lemma pow2_mask b i : Nat.land i (2 ^ b - 1) = (i mod 2 ^ b)%nat.
  Proof. replace (2 ^ b - 1)%nat with (Nat.ones b) by (rewrite Nat.ones_equiv; pose proof (pow2_pos b); lia). apply Nat.land_ones. Qed.
  Lemma slot_lt b k : (slot hash (2 ^ b - 1) k < 2 ^ b)%nat.
  Proof.
    unfold slot. pose proof (pow2_pos b).
    replace (Z.of_nat (2 ^ b - 1)) with (Z.ones (Z.of_nat b)).
    - rewrite Z.land_ones by lia. assert (2 ^ Z.of_nat b = Z.of_nat (2 ^ b)) as -> by (rewrite Nat2Z.inj_pow; reflexivity).
      pose proof (Z.mod_pos_bound (hash k) (Z.of_nat (2 ^ b)) ltac:(lia)). lia.
    - rewrite Z.ones_equiv, Nat2Z.inj_sub, Nat2Z.inj_pow by lia. reflexivity.
  Qed.
  Lemma step_mod b i : (Nat.land (i mod 2 ^ b + 1) (2 ^ b - 1) = (i + 1) mod 2 ^ b)%nat.
  Proof. pose proof (pow2_pos b). rewrite pow2_mask, Nat.add_mod_idemp_l by lia. reflexivity. Qed.

  (** Cyclic distances determine places. *)
  Lemma mod_inj n s d e : (d < n)%nat -> (e < n)%nat -> ((s + d) mod n = (s + e) mod n)%nat -> d = e.
  Proof.
    intros Hd He H. assert (n <> 0)%nat by lia.
    pose proof (Nat.div_mod (s + d) n ltac:(lia)) as A. pose proof (Nat.div_mod (s + e) n ltac:(lia)) as B.
    rewrite H in A. set (x := ((s + d) / n)%nat) in *. set (y := ((s + e) / n)%nat) in *. set (r := ((s + e) mod n)%nat) in *.
    destruct (Nat.lt_trichotomy x y) as [L | [-> | L]]; [nia | nia | nia].
  Qed.
  Lemma mod_surj n s p : (p < n)%nat -> (s < n)%nat -> exists d, (d < n)%nat /\ p = ((s + d) mod n)%nat.
  Proof.
    intros Hp Hs. destruct (decide (s <= p)%nat).
    - exists (p - s)%nat. split; [lia |]. replace (s + (p - s))%nat with p by lia. rewrite Nat.mod_small; lia.
    - exists (p + n - s)%nat. split; [lia |]. replace (s + (p + n - s))%nat with (p + 1 * n)%nat by lia.
      rewrite Nat.mod_add by lia. rewrite Nat.mod_small; lia.
  Qed.

  (** The first stop of a probe. *)
  Definition stops t (key : Z) (p : nat) : Prop := exists k v, holds t p k v /\ (k = EMPTY \/ k = key).
  Lemma first_stop (P : nat -> Prop) `{forall d, Decision (P d)} n : P n -> exists d, (d <= n)%nat /\ P d /\ forall e, (e < d)%nat -> ~ P e.
  Proof.
    induction n as [n IH] using lt_wf_ind. intros Hn.
    destruct (decide (Exists P (seq 0 n))) as [E | E].
    - apply Exists_exists in E as (m & Hm & Pm). apply elem_of_list_In, in_seq in Hm.
      destruct (IH m ltac:(lia) Pm) as (d & ? & ? & ?). exists d. split; [lia | auto].
    - exists n. split; [lia | split; [exact Hn |]]. intros e He Pe. apply E, Exists_exists. exists e. split; [apply elem_of_list_In, in_seq; lia | exact Pe].
  Qed.
  Lemma total t b p : length t = (2 ^ b)%nat -> exists k v, holds t (p mod 2 ^ b) k v.
  Proof.
    intros L. pose proof (pow2_pos b). pose proof (Nat.mod_upper_bound p (2 ^ b) ltac:(lia)).
    destruct (lookup_lt_is_Some_2 t (p mod 2 ^ b)) as [[k v] E]; [lia |]. exists k, v. exact E.
  Qed.
  Global Instance stops_dec t key p : Decision (stops t key p).
  Proof.
    destruct (t !! p) as [[k v] |] eqn:E.
    - destruct (decide (k = EMPTY \/ k = key)) as [D | D]; [left; exists k, v; split; [exact E | exact D] |].
      right. intros (k' & v' & Hh & ?). unfold holds in Hh. rewrite E in Hh. injection Hh as <- <-. auto.
    - right. intros (k' & v' & Hh & ?). unfold holds in Hh. congruence.
  Defined.

  (** The loops, when the first stop is [d] steps from the start. *)
  Lemma seek_at t b key s d fuel : length t = (2 ^ b)%nat -> (d < fuel)%nat ->
    (forall e, (e < d)%nat -> ~ stops t key ((s + e) mod 2 ^ b)) -> stops t key ((s + d) mod 2 ^ b) ->
    exists k v, holds t ((s + d) mod 2 ^ b) k v /\
      seek fuel t (2 ^ b - 1) (s mod 2 ^ b) key = Some (((s + d) mod 2 ^ b)%nat, negb (k =? EMPTY)).
  Proof.
    intros L. revert s fuel. induction d as [| d IH]; intros s fuel Hf Hno Hst; (destruct fuel as [| fuel]; [lia |]); cbn [seek].
    - destruct Hst as (k & v & Hh & Hk). rewrite Nat.add_0_r in *. exists k, v. split; [exact Hh |]. unfold holds in Hh. rewrite Hh. cbn.
      destruct (Z.eqb_spec k EMPTY); [reflexivity |]. destruct (Z.eqb_spec k key); [reflexivity | tauto].
    - destruct (total t b s L) as (k & v & Hh).
      assert (~ stops t key (s mod 2 ^ b)) as Hs by (specialize (Hno 0%nat ltac:(lia)); rewrite Nat.add_0_r in Hno; exact Hno).
      assert (k <> EMPTY /\ k <> key) as [Hk1 Hk2] by (split; intros ->; apply Hs; eexists _, _; split; eauto).
      unfold holds in Hh. rewrite Hh. cbn [mbind option_bind]. rewrite (proj2 (Z.eqb_neq _ _) Hk1), (proj2 (Z.eqb_neq _ _) Hk2), step_mod.
      destruct (IH (s + 1)%nat fuel ltac:(lia)) as (k' & v' & A & B).
      + intros e He. replace (s + 1 + e)%nat with (s + S e)%nat by lia. apply Hno. lia.
      + replace (s + 1 + d)%nat with (s + S d)%nat by lia. exact Hst.
      + replace (s + S d)%nat with (s + 1 + d)%nat by lia. exists k', v'. split; assumption.
  Qed.
  Lemma seek_empty_at t b s d fuel : length t = (2 ^ b)%nat -> (d < fuel)%nat ->
    (forall e, (e < d)%nat -> taken t ((s + e) mod 2 ^ b)) -> ~ taken t ((s + d) mod 2 ^ b) ->
    seek_empty fuel t (2 ^ b - 1) (s mod 2 ^ b) = Some ((s + d) mod 2 ^ b)%nat.
  Proof.
    intros L. revert s fuel. induction d as [| d IH]; intros s fuel Hf Hno Hst; (destruct fuel as [| fuel]; [lia |]); cbn [seek_empty].
    - rewrite Nat.add_0_r in *. destruct (total t b s L) as (k & v & Hh). pose proof Hh as E. unfold holds in E. rewrite E. cbn.
      destruct (Z.eqb_spec k EMPTY); [reflexivity |]. exfalso. apply Hst. exists k, v. split; assumption.
    - destruct (Hno 0%nat ltac:(lia)) as (k & v & Hh & Hk). rewrite Nat.add_0_r in Hh.
      unfold holds in Hh. rewrite Hh. cbn [mbind option_bind]. rewrite (proj2 (Z.eqb_neq _ _) Hk), step_mod.
      rewrite (IH (s + 1)%nat fuel ltac:(lia)); [f_equal; f_equal; lia | |].
      + intros e He. replace (s + 1 + e)%nat with (s + S e)%nat by lia. apply Hno. lia.
      + replace (s + 1 + d)%nat with (s + S d)%nat by lia. exact Hst.
  Qed.
  Lemma find_value_at t b key s d fuel k v : key <> EMPTY -> length t = (2 ^ b)%nat -> (d < fuel)%nat ->
    (forall e, (e < d)%nat -> ~ stops t key ((s + e) mod 2 ^ b)) -> holds t ((s + d) mod 2 ^ b) k v -> (k = EMPTY \/ k = key) ->
    find_value fuel t (2 ^ b - 1) (s mod 2 ^ b) key = Some (if k =? key then Some v else None).
  Proof.
    intros Hkey L. revert s fuel. induction d as [| d IH]; intros s fuel Hf Hno Hh Hk; (destruct fuel as [| fuel]; [lia |]); cbn [find_value].
    - rewrite Nat.add_0_r in *. unfold holds in Hh. rewrite Hh. cbn.
      destruct (Z.eqb_spec k key); [reflexivity |]. destruct (Z.eqb_spec k EMPTY); [reflexivity | tauto].
    - destruct (total t b s L) as (k' & v' & Hh').
      assert (~ stops t key (s mod 2 ^ b)) as Hs by (specialize (Hno 0%nat ltac:(lia)); rewrite Nat.add_0_r in Hno; exact Hno).
      assert (k' <> EMPTY /\ k' <> key) as [Hk1 Hk2] by (split; intros ->; apply Hs; eexists _, _; split; eauto).
      unfold holds in Hh'. rewrite Hh'. cbn [mbind option_bind]. rewrite (proj2 (Z.eqb_neq _ _) Hk1), (proj2 (Z.eqb_neq _ _) Hk2), step_mod.
      apply (IH (s + 1)%nat fuel); [lia | | | exact Hk].
      + intros e He. replace (s + 1 + e)%nat with (s + S e)%nat by lia. apply Hno. lia.
      + replace (s + 1 + d)%nat with (s + S d)%nat by lia. exact Hh.
  Qed.

  (** A table that is not full has a slot that is not taken. *)
  Lemma filled_all t : (forall p k v, holds t p k v -> k <> EMPTY) -> filled t = length t.
  Proof.
    unfold filled. induction t as [| [k v] t IH]; intros H; [reflexivity |]. cbn [List.filter fst].
    rewrite (proj2 (Z.eqb_neq k EMPTY)) by (apply (H 0%nat k v); reflexivity). cbn. f_equal. apply IH. intros p k' v' Hh. apply (H (S p) k' v'). exact Hh.
  Qed.
  Lemma some_free t : (filled t < length t)%nat -> exists p v, holds t p EMPTY v.
  Proof.
    unfold filled. induction t as [| [k v] t IH]; cbn; [lia |]. intros H. destruct (Z.eqb_spec k EMPTY) as [-> | N].
    - exists 0%nat, v. reflexivity.
    - cbn in H. destruct IH as (p & w & Hp); [lia |]. exists (S p), w. exact Hp.
  Qed.
  Lemma filled_insert t p k v k' v' : holds t p k v -> k' <> EMPTY ->
    filled (<[p := (k', v')]> t) = (if k =? EMPTY then S (filled t) else filled t).
  Proof.
    unfold holds, filled. revert p. induction t as [| [k0 v0] t IH]; intros p; [discriminate |].
    destruct p as [| p]; [change (<[0%nat := (k', v')]> ((k0, v0) :: t)) with ((k', v') :: t) | change (<[S p := (k', v')]> ((k0, v0) :: t)) with ((k0, v0) :: <[p := (k', v')]> t)]; cbn [lookup list_lookup].
    - intros E Hk. injection E as -> ->. cbn. rewrite (proj2 (Z.eqb_neq _ _) Hk). cbn. destruct (k =? EMPTY); reflexivity.
    - intros E Hk. specialize (IH p E Hk). cbn [List.filter fst]. destruct (k0 =? EMPTY); cbn [negb length];
        [exact IH | rewrite IH; destruct (k =? EMPTY); reflexivity].
  Qed.
  Lemma filled_repeat n : filled (repeat (EMPTY, zero) n) = 0%nat.
  Proof. unfold filled. induction n; [reflexivity | exact IHn]. Qed.
  Lemma holds_repeat n p k v : holds (repeat (EMPTY, zero) n) p k v -> k = EMPTY.
  Proof. unfold holds. intros E. apply elem_of_list_lookup_2, elem_of_list_In, repeat_spec in E. congruence. Qed.
  Lemma wf_repeat b : wf b (repeat (EMPTY, zero) (2 ^ b)).
  Proof.
    split.
    - apply repeat_length.
    - intros p q k v w H _ N. apply holds_repeat in H. contradiction.
    - intros p k v H N. apply holds_repeat in H. contradiction.
  Qed.

  (** Where a probe for a key stops. *)
  Lemma probe t b key : wf b t -> (filled t < 2 ^ b)%nat -> key <> EMPTY ->
    exists d k v, (d < 2 ^ b)%nat /\ holds t ((slot hash (2 ^ b - 1) key + d) mod 2 ^ b) k v /\ (k = EMPTY \/ k = key) /\
      (forall e, (e < d)%nat -> ~ stops t key ((slot hash (2 ^ b - 1) key + e) mod 2 ^ b)) /\
      (k = EMPTY -> forall q w, ~ holds t q key w).
  Proof.
    intros W F Hk. pose proof (slot_lt b key) as Hs. set (s := slot hash (2 ^ b - 1) key) in *.
    destruct (some_free t) as (p & w & Hp); [rewrite (wf_len _ _ W); exact F |].
    assert (p < 2 ^ b)%nat as Hlt by (rewrite <- (wf_len _ _ W); apply lookup_lt_Some in Hp; exact Hp).
    destruct (mod_surj (2 ^ b) s p Hlt Hs) as (d & Hd & ->).
    destruct (first_stop (fun d => stops t key ((s + d) mod 2 ^ b)) d) as (d0 & Hd0 & (k & v & Hh & Hkk) & Hfirst).
    { exists EMPTY, w. split; [exact Hp | left; reflexivity]. }
    exists d0, k, v. split; [lia |]. split; [exact Hh |]. split; [exact Hkk |]. split; [exact Hfirst |].
    intros -> q u Hq. destruct (wf_reach _ _ W q key u Hq Hk) as (dq & Hdq & -> & Hpath). fold s in Hq, Hpath.
    destruct (Nat.lt_trichotomy dq d0) as [L | [-> | L]].
    - apply (Hfirst dq L). exists key, u. split; [exact Hq | right; reflexivity].
    - unfold holds in *. rewrite Hh in Hq. injection Hq as E _. congruence.
    - destruct (Hpath d0 L) as (k' & v' & Hh' & N). unfold holds in *. rewrite Hh in Hh'. injection Hh' as E _. congruence.
  Qed.

  Lemma holds_insert t p k v q k' v' : (p < length t)%nat ->
    holds (<[p := (k, v)]> t) q k' v' <-> (q = p /\ k' = k /\ v' = v) \/ (q <> p /\ holds t q k' v').
  Proof.
    intros L. unfold holds. destruct (decide (q = p)) as [-> | N].
    - rewrite list_lookup_insert by exact L. split.
      + intros E. injection E as <- <-. left. auto.
      + intros [(_ & -> & ->) | [N _]]; [reflexivity | congruence].
    - rewrite list_lookup_insert_ne by congruence. split; [intros H; right; auto | intros [(? & _) | [_ H]]; [congruence | exact H]].
  Qed.
  Lemma taken_insert t p k v q : (p < length t)%nat -> k <> EMPTY -> taken t q -> taken (<[p := (k, v)]> t) q.
  Proof.
    intros L N (k' & v' & Hh & N'). destruct (decide (q = p)) as [-> | D].
    - exists k, v. split; [apply holds_insert; auto | exact N].
    - exists k', v'. split; [apply holds_insert; auto | exact N'].
  Qed.

  (** Writing an entry where the probe for its key stops keeps the shape. *)
  Lemma wf_write t b key value d k v : wf b t -> key <> EMPTY -> (d < 2 ^ b)%nat ->
    holds t ((slot hash (2 ^ b - 1) key + d) mod 2 ^ b) k v ->
    (forall e, (e < d)%nat -> taken t ((slot hash (2 ^ b - 1) key + e) mod 2 ^ b)) ->
    k = key \/ (k = EMPTY /\ forall q w, ~ holds t q key w) ->
    wf b (<[((slot hash (2 ^ b - 1) key + d) mod 2 ^ b)%nat := (key, value)]> t).
  Proof.
    intros W Hk Hd Hh Hpath Hcase. set (s := slot hash (2 ^ b - 1) key) in *. set (p := ((s + d) mod 2 ^ b)%nat) in *.
    assert (p < length t)%nat as L by (apply lookup_lt_Some in Hh; exact Hh).
    split.
    - rewrite insert_length. apply W.
    - intros p1 p2 k0 v1 v2 H1 H2 N. apply holds_insert in H1, H2; try exact L.
      destruct H1 as [(-> & -> & ->) | [N1 H1]], H2 as [(-> & E & ->) | [N2 H2]]; try subst k0; try reflexivity.
      + exfalso. destruct Hcase as [-> | [-> Habs]]; [apply N2; exact (wf_uniq _ _ W _ _ _ _ _ H2 Hh N) | exact (Habs _ _ H2)].
      + exfalso. destruct Hcase as [-> | [-> Habs]]; [apply N1; exact (wf_uniq _ _ W _ _ _ _ _ H1 Hh N) | exact (Habs _ _ H1)].
      + exact (wf_uniq _ _ W _ _ _ _ _ H1 H2 N).
    - intros q k0 v0 H0 N. apply holds_insert in H0; [| exact L]. destruct H0 as [(-> & -> & ->) | [Nq H0]].
      + exists d. split; [exact Hd | split; [reflexivity |]]. intros e He. apply taken_insert; auto.
      + destruct (wf_reach _ _ W q k0 v0 H0 N) as (d0 & Hd0 & Hq & Hp0). exists d0. split; [exact Hd0 | split; [exact Hq |]].
        intros e He. apply taken_insert; auto.
  Qed.

  Lemma not_stops_taken t b key s : length t = (2 ^ b)%nat -> ~ stops t key (s mod 2 ^ b) -> taken t (s mod 2 ^ b).
  Proof.
    intros L N. destruct (total t b s L) as (k & v & Hh). exists k, v. split; [exact Hh |]. intros ->. apply N. exists EMPTY, v. auto.
  Qed.

  (** The content of a table. *)
  Definition content t (k : Z) (v : V) : Prop := k <> EMPTY /\ exists p, holds t p k v.

  Lemma refill_spec b : forall old t, wf b t -> (filled t + filled old < 2 ^ b)%nat ->
    (forall p q k v w, holds old p k v -> holds old q k w -> k <> EMPTY -> p = q) ->
    (forall k v w, content old k v -> content t k w -> False) ->
    exists t', refill hash (2 ^ b - 1) old t = Some t' /\ wf b t' /\ filled t' = (filled t + filled old)%nat /\
      (forall k v, content t' k v <-> content t k v \/ content old k v).
  Proof.
    induction old as [| [k v] old IH]; intros t W F U D; cbn [refill].
    - exists t. split; [reflexivity | split; [exact W | split; [unfold filled; cbn; lia |]]]. intros k v.
      split; [auto | intros [H | (_ & p & H)]; [exact H | discriminate]].
    - assert (U' : forall p q k v w, holds old p k v -> holds old q k w -> k <> EMPTY -> p = q).
      { intros p q k0 v0 w0 A B N. specialize (U (S p) (S q) k0 v0 w0 A B N). lia. }
      destruct (Z.eqb_spec k EMPTY) as [-> | N].
      + destruct (IH t W) as (t' & E & W' & F' & C').
        { unfold filled in F. cbn in F. exact F. } { exact U'. }
        { intros k0 v0 w0 [N0 (p & A)] B. apply (D k0 v0 w0); [split; [exact N0 | exists (S p); exact A] | exact B]. }
        exists t'. split; [exact E | split; [exact W' | split; [unfold filled; cbn; exact F' |]]]. intros k0 v0. rewrite C'.
        split; (intros [H | [N0 (p & H)]]; [left; exact H | right; split; [exact N0 |]]).
        * exists (S p). exact H.
        * destruct p as [| p]; [exfalso; injection H as H _; congruence | exists p; exact H].
      + assert (filled ((k, v) :: old) = S (filled old)) as Fe by (unfold filled; cbn; rewrite (proj2 (Z.eqb_neq _ _) N); reflexivity).
        destruct (probe t b k W ltac:(lia) N) as (d & k0 & v0 & Hd & Hh & Hkk & Hfirst & Habs).
        assert (k0 = EMPTY) as ->.
        { destruct Hkk as [? | ->]; [assumption |]. exfalso. apply (D k v v0); [split; [exact N | exists 0%nat; reflexivity] | split; [exact N | eexists; exact Hh]]. }
        specialize (Habs eq_refl).
        assert (forall e, (e < d)%nat -> taken t ((slot hash (2 ^ b - 1) k + e) mod 2 ^ b)) as Hpath
          by (intros e He; apply (not_stops_taken t b k); [apply W | apply Hfirst; exact He]).
        assert (~ taken t ((slot hash (2 ^ b - 1) k + d) mod 2 ^ b)) as Hfree.
        { intros (k' & v' & Hh' & N'). unfold holds in *. rewrite Hh in Hh'. injection Hh' as E _. congruence. }
        pose proof (seek_empty_at t b (slot hash (2 ^ b - 1) k) d (2 ^ b - 1 + 1) (wf_len _ _ W) ltac:(lia) Hpath Hfree) as E.
        rewrite (Nat.mod_small (slot hash (2 ^ b - 1) k)) in E by apply slot_lt. rewrite E. cbn [mbind option_bind].
        set (p := ((slot hash (2 ^ b - 1) k + d) mod 2 ^ b)%nat) in *.
        assert (p < length t)%nat as L by (apply lookup_lt_Some in Hh; exact Hh).
        destruct (IH (<[p := (k, v)]> t)) as (t' & E' & W' & F' & C').
        { eapply wf_write; eauto. }
        { rewrite (filled_insert t p EMPTY v0 k v Hh N). cbn. lia. }
        { exact U'. }
        { intros k1 v1 w1 [N1 (q & A)] [_ (r & B)]. apply holds_insert in B; [| exact L]. destruct B as [(-> & -> & ->) | [_ B]].
          - specialize (U (S q) 0%nat k v1 v A eq_refl N1). discriminate.
          - apply (D k1 v1 w1); [split; [exact N1 | exists (S q); exact A] | split; [exact N1 | exists r; exact B]]. }
        exists t'. split; [exact E' | split; [exact W' | split]].
        { rewrite F', (filled_insert t p EMPTY v0 k v Hh N), Fe. cbn. lia. }
        intros k1 v1. rewrite C'. split.
        * intros [[N1 (q & H)] | [N1 (q & H)]].
          -- apply holds_insert in H; [| exact L]. destruct H as [(-> & -> & ->) | [_ H]]; [right; split; [exact N | exists 0%nat; reflexivity] | left; split; [exact N1 | eauto]].
          -- right. split; [exact N1 | exists (S q); exact H].
        * intros [[N1 (q & H)] | [N1 (q & H)]].
          -- left. split; [exact N1 |]. exists q. apply holds_insert; [exact L |]. right. split; [| exact H].
             intros ->. apply Hfree. exists k1, v1. auto.
          -- destruct q as [| q]; [injection H as <- <-; left; split; [exact N |]; exists p; apply holds_insert; auto | right; split; [exact N1 | exists q; exact H]].
  Qed.

  (** The invariant of a map: [S] slots hold [M]'s non-zero keys, the zero key is apart. *)
  Record inv (m : table V) (M : gmap Z V) : Prop := Inv {
    inv_shape : (mask m = 0%nat /\ entries m = []) \/
      exists b, (3 <= b)%nat /\ mask m = (2 ^ b - 1)%nat /\ wf b (entries m) /\ (filled (entries m) * 4 <= 2 ^ b * 3)%nat;
    inv_content : forall k v, k <> EMPTY -> (M !! k = Some v <-> content (entries m) k v);
    inv_zero : M !! EMPTY = (if has_zero_key m then Some (zero_key_val m) else None);
    inv_filled : (filled (entries m) + (if has_zero_key m then 1 else 0) = count m)%nat;
    inv_count : count m = size M }.

  Lemma inv_new : inv (new zero) ∅.
  Proof.
    split; cbn.
    - left. auto.
    - intros k v N. rewrite lookup_empty. split; [discriminate | intros (_ & p & H); discriminate].
    - apply lookup_empty.
    - reflexivity.
    - rewrite map_size_empty. reflexivity.
  Qed.
  Lemma inv_with_capacity cap : inv (with_capacity zero cap) ∅.
  Proof.
    unfold with_capacity. destruct (0 <? cap)%nat eqn:E; [| apply inv_new].
    assert (exists b, (3 <= b)%nat /\ Nat.max (next_power_of_two (cap * 4 / 3 + 1)) 8 = (2 ^ b)%nat) as (b & Hb & ->).
    { unfold next_power_of_two. set (l := Nat.log2_up (cap * 4 / 3 + 1)). clearbody l. destruct (decide (3 <= l)%nat) as [L | L].
      - exists l. split; [exact L |]. pose proof (Nat.pow_le_mono_r 2 3 l ltac:(lia) L). change (2 ^ 3)%nat with 8%nat in *. lia.
      - exists 3%nat. split; [lia |]. pose proof (Nat.pow_le_mono_r 2 l 3 ltac:(lia) ltac:(lia)). change (2 ^ 3)%nat with 8%nat in *. lia. }
    split; cbn [mask entries count has_zero_key zero_key_val].
    - right. exists b. rewrite filled_repeat. split; [exact Hb | split; [reflexivity | split; [apply wf_repeat | lia]]].
    - intros k v N. rewrite lookup_empty. split; [discriminate | intros (_ & p & H)]. apply holds_repeat in H. contradiction.
    - apply lookup_empty.
    - rewrite filled_repeat. reflexivity.
    - rewrite map_size_empty. reflexivity.
  Qed.

  Lemma pow2_8 b : (3 <= b)%nat -> (8 <= 2 ^ b)%nat.
  Proof. intros H. pose proof (Nat.pow_le_mono_r 2 3 b ltac:(lia) H). change (2 ^ 3)%nat with 8%nat in *. lia. Qed.

  Lemma grow_spec m M : inv m M -> exists m', grow zero hash m = Some m' /\ inv m' M /\ exists b, mask m' = (2 ^ b - 1)%nat /\ (3 <= b)%nat /\ wf b (entries m') /\
    (filled (entries m') * 8 <= 2 ^ b * 3)%nat.
  Proof.
    intros I. unfold grow.
    assert (exists b, (3 <= b)%nat /\ (if (mask m =? 0)%nat then 8%nat else ((mask m + 1) * 2)%nat) = (2 ^ b)%nat /\
      (filled (entries m) * 8 <= 2 ^ b * 3)%nat /\
      (forall p q k v w, holds (entries m) p k v -> holds (entries m) q k w -> k <> EMPTY -> p = q)) as (b & Hb & Hslots & Hf & U).
    { destruct (inv_shape _ _ I) as [[-> ->] | (b & Hb & -> & W & F)].
      - exists 3%nat. split; [lia | split; [reflexivity | split; [unfold filled; cbn; lia |]]]. intros p q k v w H. discriminate.
      - pose proof (pow2_8 b Hb). exists (S b). rewrite (proj2 (Nat.eqb_neq (2 ^ b - 1) 0)) by lia. rewrite Nat.pow_succ_r'.
        split; [lia | split; [lia | split; [lia | apply W]]]. }
    rewrite Hslots. unfold assume_table_invariant. rewrite repeat_length. pose proof (pow2_8 b Hb).
    rewrite (proj2 (Nat.eqb_eq (2 ^ b - 1 + 1) (2 ^ b))) by lia. cbn [mbind option_bind].
    destruct (refill_spec b (entries m) (repeat (EMPTY, zero) (2 ^ b)) (wf_repeat b)) as (t & E & W & F & C).
    { rewrite filled_repeat. lia. } { exact U. }
    { intros k v w _ [N (p & H1)]. apply holds_repeat in H1. contradiction. }
    rewrite E. cbn [mbind option_bind]. rewrite filled_repeat in F.
    eexists. split; [reflexivity |]. split; [split |]; cbn [mask entries count has_zero_key zero_key_val].
    - right. exists b. split; [exact Hb | split; [reflexivity | split; [exact W | lia]]].
    - intros k v N. rewrite (inv_content _ _ I k v N), C. split; [auto | intros [[_ (p & H1)] | H1]; [apply holds_repeat in H1; contradiction | exact H1]].
    - apply I.
    - rewrite F. apply I.
    - apply I.
    - exists b. split; [reflexivity | split; [exact Hb | split; [exact W | lia]]].
  Qed.

  Lemma content_insert t p key value k v k0 v0 : holds t p k0 v0 -> key <> EMPTY -> (k0 = key \/ k0 = EMPTY /\ forall q w, ~ holds t q key w) ->
    (forall q w, holds t q key w -> q = p) ->
    content (<[p := (key, value)]> t) k v <-> (k = key /\ v = value) \/ (k <> key /\ content t k v).
  Proof.
    intros Hh N Hc U. assert (p < length t)%nat as L by (apply lookup_lt_Some in Hh; exact Hh). split.
    - intros [Nk (q & H)]. apply holds_insert in H; [| exact L]. destruct H as [(-> & -> & ->) | [Nq H]]; [left; auto |].
      right. split; [intros ->; apply Nq, (U _ _ H) | split; [exact Nk | eauto]].
    - intros [[-> ->] | [Nk [Ne (q & H)]]].
      + split; [exact N |]. exists p. apply holds_insert; auto.
      + split; [exact Ne |]. exists q. apply holds_insert; [exact L |]. right. split; [| exact H]. intros ->.
        unfold holds in *. rewrite Hh in H. injection H as -> ->. destruct Hc as [-> | [-> _]]; [apply Nk; reflexivity | apply Ne; reflexivity].
  Qed.

  Lemma insert_spec m M key value : inv m M -> exists m', insert zero hash m key value = Some m' /\ inv m' (<[key := value]> M).
  Proof.
    intros I. unfold insert. destruct (Z.eqb_spec key EMPTY) as [-> | N].
    - eexists. split; [reflexivity |]. split; cbn [mask entries count has_zero_key zero_key_val].
      + apply I.
      + intros k v Nk. rewrite lookup_insert_ne by congruence. apply I. exact Nk.
      + apply lookup_insert.
      + pose proof (inv_filled _ _ I). destruct (has_zero_key m); lia.
      + pose proof (inv_zero _ _ I) as Hz. pose proof (inv_count _ _ I) as Hc. destruct (has_zero_key m).
        * rewrite map_size_insert, Hz. cbn. exact Hc.
        * rewrite map_size_insert, Hz. cbn. rewrite Hc. reflexivity.
    - assert (exists m1, (if (mask m =? 0)%nat || ((mask m + 1) * 3 <? (table_len m + 1) * 4)%nat then grow zero hash m else Some m) = Some m1 /\
        inv m1 M /\ exists b, (3 <= b)%nat /\ mask m1 = (2 ^ b - 1)%nat /\ wf b (entries m1) /\ ((filled (entries m1) + 1) * 4 <= 2 ^ b * 3)%nat)
        as (m1 & E1 & I1 & b & Hb & Hm & W & F).
      { pose proof (inv_filled _ _ I) as Hfl. assert (table_len m = filled (entries m)) as Htl by (unfold table_len; destruct (has_zero_key m); lia).
        destruct ((mask m =? 0)%nat || ((mask m + 1) * 3 <? (table_len m + 1) * 4)%nat) eqn:G.
        - destruct (grow_spec m M I) as (m1 & E & I1 & b & Hm & Hb & W & F). exists m1. split; [exact E | split; [exact I1 |]]. exists b.
          pose proof (pow2_8 b Hb). split; [exact Hb | split; [exact Hm | split; [exact W | lia]]].
        - apply orb_false_iff in G as [G1 G2]. apply Nat.eqb_neq in G1. apply Nat.ltb_ge in G2. rewrite Htl in G2.
          destruct (inv_shape _ _ I) as [[? _] | (b & Hb & Hm & W & F)]; [contradiction |].
          exists m. split; [reflexivity | split; [exact I |]]. exists b. rewrite Hm in G2. pose proof (pow2_8 b Hb).
          split; [exact Hb | split; [exact Hm | split; [exact W | lia]]]. }
      rewrite E1. cbn [mbind option_bind]. pose proof (pow2_8 b Hb) as H8.
      unfold assume_table_invariant. rewrite Hm, (wf_len _ _ W), (proj2 (Nat.eqb_eq (2 ^ b - 1 + 1) (2 ^ b))) by lia. cbn [mbind option_bind].
      destruct (probe (entries m1) b key W ltac:(lia) N) as (d & k & v & Hd & Hh & Hkk & Hfirst & Habs).
      destruct (seek_at (entries m1) b key (slot hash (2 ^ b - 1) key) d (2 ^ b - 1 + 1) (wf_len _ _ W) ltac:(lia) Hfirst) as (k' & v' & Hh' & E).
      { exists k, v. auto. }
      assert (k' = k /\ v' = v) as [-> ->] by (unfold holds in *; rewrite Hh in Hh'; injection Hh' as <- <-; auto).
      rewrite (Nat.mod_small (slot hash (2 ^ b - 1) key)) in E by apply slot_lt. rewrite E. cbn [mbind option_bind].
      set (p := ((slot hash (2 ^ b - 1) key + d) mod 2 ^ b)%nat) in *.
      assert (k = key \/ (k = EMPTY /\ forall q w, ~ holds (entries m1) q key w)) as Hc by (destruct Hkk as [-> | ->]; [right; split; [reflexivity | apply Habs; reflexivity] | left; reflexivity]).
      assert (wf b (<[p := (key, value)]> (entries m1))) as W'.
      { apply (wf_write (entries m1) b key value d k v W N Hd Hh); [| exact Hc]. intros e He. apply (not_stops_taken _ b key); [apply W | apply Hfirst; exact He]. }
      assert (forall q w, holds (entries m1) q key w -> q = p) as U.
      { intros q w Hq. destruct Hc as [-> | [_ Ha]]; [exact (wf_uniq _ _ W _ _ _ _ _ Hq Hh N) | exfalso; exact (Ha _ _ Hq)]. }
      pose proof (filled_insert (entries m1) p k v key value Hh N) as Hfi.
      eexists. split; [reflexivity |]. split; cbn [mask entries count has_zero_key zero_key_val].
      + right. exists b. split; [exact Hb | split; [reflexivity | split; [exact W' |]]]. rewrite Hfi. destruct (k =? EMPTY); lia.
      + intros k1 v1 N1. rewrite (content_insert _ _ _ _ _ _ k v Hh N Hc U). rewrite lookup_insert_Some, (inv_content _ _ I1 k1 v1 N1).
        split; (intros [[? ?] | [? ?]]; [left; split; congruence | right; split; congruence || assumption]).
      + rewrite lookup_insert_ne by congruence. apply I1.
      + pose proof (inv_filled _ _ I1). rewrite Hfi. destruct (k =? EMPTY); cbn [negb]; lia.
      + rewrite map_size_insert. pose proof (inv_count _ _ I1) as Hcnt. destruct Hc as [-> | [-> Ha]].
        * rewrite (proj2 (Z.eqb_neq _ _) N). cbn [negb].
          rewrite (proj2 (inv_content _ _ I1 key v N) (conj N (ex_intro _ p Hh))). exact Hcnt.
        * rewrite Z.eqb_refl. cbn [negb]. destruct (M !! key) as [w |] eqn:Ew; [| rewrite Hcnt; reflexivity].
          exfalso. apply (proj1 (inv_content _ _ I1 key w N)) in Ew as [_ (q & Hq)]. exact (Ha _ _ Hq).
  Qed.

  Lemma get_spec m M key : inv m M -> get hash m key = Some (M !! key).
  Proof.
    intros I. unfold get. destruct (Z.eqb_spec key EMPTY) as [-> | N]; [rewrite (inv_zero _ _ I); reflexivity |].
    destruct (inv_shape _ _ I) as [[Hm He] | (b & Hb & Hm & W & F)].
    - rewrite Hm. cbn. destruct (M !! key) as [v |] eqn:E; [| reflexivity].
      apply (proj1 (inv_content _ _ I key v N)) in E as [_ (p & H)]. rewrite He in H. discriminate.
    - pose proof (pow2_8 b Hb) as H8. rewrite Hm, (proj2 (Nat.eqb_neq (2 ^ b - 1) 0)) by lia.
      unfold assume_table_invariant. rewrite (wf_len _ _ W), (proj2 (Nat.eqb_eq (2 ^ b - 1 + 1) (2 ^ b))) by lia. cbn [mbind option_bind].
      destruct (probe (entries m) b key W ltac:(lia) N) as (d & k & v & Hd & Hh & Hkk & Hfirst & Habs).
      pose proof (find_value_at (entries m) b key (slot hash (2 ^ b - 1) key) d (2 ^ b - 1 + 1) k v N (wf_len _ _ W) ltac:(lia) Hfirst Hh Hkk) as E.
      rewrite (Nat.mod_small (slot hash (2 ^ b - 1) key)) in E by apply slot_lt. rewrite E. f_equal.
      destruct (Z.eqb_spec k key) as [-> | Nk].
      + symmetry. apply (inv_content _ _ I key v N). split; [exact N | eauto].
      + destruct Hkk as [-> | ?]; [| contradiction]. destruct (M !! key) as [w |] eqn:Ew; [| reflexivity].
        apply (proj1 (inv_content _ _ I key w N)) in Ew as [_ (q & Hq)]. exfalso. exact (Habs eq_refl _ _ Hq).
  Qed.
End table.
