(* The monomials, and evaluation over them *)
From Coq Require Import List Lia Bool Arith Sorted FinFun.
Import ListNotations.
From Verif Require Import BoolFnProofs BmProofs AlgModel AlgProofs.

Lemma combos_app k : forall s l cur, combos k s l cur = map (app cur) (combos k s l []).
Proof.
  induction k as [|k IH]; intros s l cur; cbn [combos].
  - cbn [map]. rewrite app_nil_r. reflexivity.
  - rewrite !flat_map_concat_map, concat_map, map_map. f_equal. apply map_ext. intros v.
    rewrite (IH (v + 1) l (cur ++ [v])), (IH (v + 1) l ([] ++ [v])), map_map. apply map_ext. intros t.
    cbn [app]. rewrite <- app_assoc. reflexivity.
Qed.
Lemma combos_S k s l : combos (S k) s l [] = flat_map (fun v => map (cons v) (combos k (v + 1) l [])) (seq s (l - s)).
Proof. cbn [combos]. rewrite !flat_map_concat_map. f_equal. apply map_ext. intros v. rewrite combos_app. reflexivity. Qed.

Definition above (s : nat) (m : list nat) : Prop := forall v, In v m -> s <= v.
Definition below (l : nat) (m : list nat) : Prop := forall v, In v m -> v < l.
Lemma combos_in l : forall k s m, In m (combos k s l []) <-> StronglySorted lt m /\ above s m /\ below l m /\ length m = k.
Proof.
  induction k as [|k IH]; intros s m.
  - cbn [combos]. split.
    + intros [<-|[]]. repeat split; [constructor|intros v []|intros v []].
    + intros (_ & _ & _ & L). destruct m; [left; reflexivity|discriminate].
  - rewrite combos_S, in_flat_map. split.
    + intros (v & Hv & Hm). apply in_seq in Hv. apply in_map_iff in Hm as (t & <- & Ht). apply IH in Ht as (So & Ab & Be & Le).
      split; [|split; [|split]].
      * constructor; [exact So|]. apply Forall_forall. intros x Hx. apply Ab in Hx. lia.
      * intros x [<-|Hx]; [lia|]. apply Ab in Hx. lia.
      * intros x [<-|Hx]; [lia|]. apply Be. exact Hx.
      * cbn [length]. lia.
    + intros (So & Ab & Be & Le). destruct m as [|v t]; [discriminate|]. inversion So as [|? ? So' Fa]; subst.
      exists v. split; [apply in_seq; specialize (Ab v (or_introl eq_refl)); specialize (Be v (or_introl eq_refl)); lia|].
      apply in_map. apply IH. split; [exact So'|]. split; [|split].
      * intros x Hx. rewrite Forall_forall in Fa. apply Fa in Hx. lia.
      * intros x Hx. apply Be. right. exact Hx.
      * cbn [length] in Le. lia.
Qed.

Lemma NoDup_flat_map {A B} (f : A -> list B) l : NoDup l -> (forall a, In a l -> NoDup (f a)) ->
  (forall a b x, In a l -> In b l -> In x (f a) -> In x (f b) -> a = b) -> NoDup (flat_map f l).
Proof.
  induction l as [|a l IH]; intros ND F D; cbn [flat_map]; [constructor|]. inversion ND as [|? ? Na ND']; subst.
  assert (IHl : NoDup (flat_map f l)).
  { apply IH; [exact ND'|intros b Hb; apply F; right; exact Hb|]. intros b c x Hb Hc. apply D; right; assumption. }
  assert (Dj : forall x, In x (f a) -> ~ In x (flat_map f l)).
  { intros x Hx Hin. apply in_flat_map in Hin as (b & Hb & Hxb). apply Na. rewrite (D a b x (or_introl eq_refl) (or_intror Hb) Hx Hxb). exact Hb. }
  specialize (F a (or_introl eq_refl)). clear - F IHl Dj. induction F as [|x fa Hx F IH]; cbn [app]; [exact IHl|].
  constructor; [|apply IH; intros y Hy; apply Dj; right; exact Hy].
  intros Hin. apply in_app_or in Hin as [Hin|Hin]; [exact (Hx Hin)|exact (Dj x (or_introl eq_refl) Hin)].
Qed.
Lemma combos_nodup l : forall k s, NoDup (combos k s l []).
Proof.
  induction k as [|k IH]; intros s; [cbn [combos]; constructor; [intros []|constructor]|]. rewrite combos_S. apply NoDup_flat_map.
  - apply seq_NoDup.
  - intros v _. apply Injective_map_NoDup; [intros a b E; congruence|apply IH].
  - intros a b x _ _ Ha Hb. apply in_map_iff in Ha as (t & <- & _), Hb as (t' & E & _). congruence.
Qed.

Fixpoint binom (n k : nat) : nat :=
  match k, n with
  | 0, _ => 1
  | S _, 0 => 0
  | S k', S n' => binom n' k' + binom n' k
  end.
Fixpoint upto (n d : nat) : nat := match d with 0 => binom n 0 | S d' => upto n d' + binom n d end.
Lemma binom_0 n : binom n 0 = 1.
Proof. destruct n; reflexivity. Qed.
Lemma binom_big n : forall k, n < k -> binom n k = 0.
Proof. induction n as [|n IH]; intros [|k] H; try lia; [reflexivity|]. cbn [binom]. rewrite !IH by lia. reflexivity. Qed.
Lemma binom_sym n : forall k, k <= n -> binom n k = binom n (n - k).
Proof.
  induction n as [|n IH]; intros [|k] H; try lia; try reflexivity.
  - rewrite Nat.sub_0_r. cbn [binom]. rewrite (binom_big n (S n)) by lia. rewrite <- (Nat.sub_0_r n) at 2. rewrite <- IH by lia. rewrite binom_0. reflexivity.
  - cbn [binom Nat.sub]. destruct (Nat.eq_dec k n) as [->|N].
    + rewrite Nat.sub_diag, (binom_big n (S n)) by lia. rewrite IH, Nat.sub_diag, binom_0 by lia. destruct n; reflexivity.
    + destruct (n - k) as [|j] eqn:Ej; [lia|]. cbn [binom]. rewrite (IH k) by lia. rewrite (IH (S k)) by lia.
      rewrite Ej. replace (n - S k) with j by lia. lia.
Qed.
Lemma upto_pascal n d : upto (S n) (S d) = upto n d + upto n (S d).
Proof. induction d as [|d IH]; [cbn [upto binom]; destruct n; cbn [binom]; lia|]. cbn [upto] in *. rewrite IH. cbn [binom]. lia. Qed.
Lemma upto_full n : forall d, n <= d -> upto n d = 2 ^ n.
Proof.
  induction n as [|n IH]; intros d H.
  - induction d as [|d IHd]; [reflexivity|]. cbn [upto]. rewrite IHd by lia. cbn [binom Nat.pow]. lia.
  - destruct d as [|d]; [lia|]. rewrite upto_pascal, !IH by lia. cbn [Nat.pow]. lia.
Qed.
Lemma upto_half n : forall d, d < n -> upto n d + upto n (n - 1 - d) = 2 ^ n.
Proof.
  induction d as [|d IH]; intros H.
  - rewrite Nat.sub_0_r. destruct n as [|n]; [lia|]. rewrite <- (upto_full (S n) (S n)) by lia.
    replace (S n - 1) with n by lia. cbn [upto]. rewrite (binom_sym (S n) (S n)), Nat.sub_diag by lia. lia.
  - specialize (IH ltac:(lia)). destruct (n - 1 - d) as [|j] eqn:Ej; [lia|]. replace (n - 1 - S d) with j by lia.
    cbn [upto] in *. rewrite (binom_sym n (S j)) in IH by lia. replace (n - S j) with (S d) in IH by lia. lia.
Qed.
Lemma binom_pos n k : k <= n -> 1 <= binom n k.
Proof. revert k. induction n as [|n IH]; intros [|k] H; cbn [binom]; try lia. specialize (IH k ltac:(lia)). lia. Qed.
Lemma upto_mono n a b : a <= b -> upto n a <= upto n b.
Proof. intros H. induction H; [lia|]. cbn [upto]. lia. Qed.
Lemma upto_majority n d : n <= 2 * d -> d <= n -> 2 ^ n < 2 * upto n d.
Proof.
  intros H L. destruct (Nat.eq_dec d n) as [->|N]; [rewrite upto_full by lia; assert (2 ^ n <> 0) by (apply Nat.pow_nonzero; lia); lia|].
  pose proof (upto_half n d ltac:(lia)) as E. destruct d as [|d]; [assert (n = 0) by lia; lia|].
  pose proof (upto_mono n (n - 1 - S d) d ltac:(lia)). pose proof (binom_pos n (S d) ltac:(lia)). cbn [upto] in *. lia.
Qed.

Lemma flat_map_length_sum {A B} (f : A -> list B) l : length (flat_map f l) = list_sum (map (fun a => length (f a)) l).
Proof. induction l as [|a l IH]; [reflexivity|]. cbn [flat_map map list_sum fold_right]. rewrite app_length, IH. reflexivity. Qed.
Lemma combos_length l : forall k s, length (combos k s l []) = binom (l - s) k.
Proof.
  induction k as [|k IH]; intros s; [cbn [combos length]; rewrite binom_0; reflexivity|].
  rewrite combos_S, flat_map_length_sum.
  transitivity (list_sum (map (fun v => binom (l - (v + 1)) k) (seq s (l - s)))).
  - f_equal. apply map_ext. intros v. rewrite map_length. apply IH.
  - remember (l - s) as m eqn:Em. revert s Em. induction m as [|m IHm]; intros s Em; [reflexivity|].
    cbn [seq map list_sum fold_right]. specialize (IHm (S s) ltac:(lia)). unfold list_sum in IHm. rewrite IHm.
    cbn [binom]. replace (l - (s + 1)) with m by lia. lia.
Qed.

Lemma monomials_in l d m : In m (monomials l d) <-> StronglySorted lt m /\ below l m /\ length m <= d.
Proof.
  unfold monomials. cbn [In]. rewrite in_flat_map. split.
  - intros [<-|(k & Hk & Hm)].
    + repeat split; [constructor|intros v []|cbn; lia].
    + apply in_seq in Hk. apply combos_in in Hm as (So & _ & Be & Le). repeat split; [exact So|exact Be|lia].
  - intros (So & Be & Le). destruct m as [|v t]; [left; reflexivity|right]. exists (length (v :: t)).
    assert (Hl : length (v :: t) <= l).
    { rewrite <- (seq_length l 0). apply NoDup_incl_length.
      - clear - So. induction So as [|a m So IH Fa]; [constructor|]. constructor; [|exact IH]. intros Hin.
        rewrite Forall_forall in Fa. apply Fa in Hin. lia.
      - intros x Hx. apply in_seq. apply Be in Hx. lia. }
    split; [apply in_seq; cbn [length] in *; lia|]. apply combos_in. repeat split; [exact So|intros x _; lia|exact Be].
Qed.
Lemma monomials_nodup l d : NoDup (monomials l d).
Proof.
  unfold monomials. constructor.
  - intros Hin. apply in_flat_map in Hin as (k & Hk & Hm). apply in_seq in Hk. apply combos_in in Hm as (_ & _ & _ & Le). cbn [length] in Le. lia.
  - apply NoDup_flat_map; [apply seq_NoDup|intros k _; apply combos_nodup|].
    intros a b x _ _ Ha Hb. apply combos_in in Ha as (_ & _ & _ & <-), Hb as (_ & _ & _ & <-). reflexivity.
Qed.
Lemma monomials_length l d : length (monomials l d) = upto l (Nat.min d l).
Proof.
  unfold monomials. cbn [length]. rewrite flat_map_length_sum.
  generalize (Nat.min d l) as m. induction m as [|m IH]; [cbn; rewrite binom_0; reflexivity|].
  rewrite seq_S, map_app. cbn [map Nat.add]. rewrite list_sum_app. cbn [list_sum fold_right upto].
  rewrite <- IH, combos_length, Nat.sub_0_r. lia.
Qed.
Lemma monomials_count l d : length (monomials l d) = upto l d.
Proof.
  rewrite monomials_length. destruct (Nat.le_gt_cases d l); [rewrite Nat.min_l by assumption; reflexivity|].
  rewrite Nat.min_r by lia. rewrite !upto_full by lia. reflexivity.
Qed.

(* the value of a polynomial, as a sum *)
Lemma feedback_sum monos coeffs w :
  feedback monos coeffs w = parity (length monos) (fun t => nth t coeffs false && eval_monomial (nth t monos []) w).
Proof.
  unfold feedback.
  assert (G : forall ms a b, fold_left (fun bit '(mi, mono) => if nth mi coeffs false && eval_monomial mono w then xorb bit true else bit)
      (combine (seq a (length ms)) ms) b = xorb b (parity (length ms) (fun t => nth (a + t) coeffs false && eval_monomial (nth t ms []) w))).
  { induction ms as [|m ms IH]; intros a b; [cbn; destruct b; reflexivity|]. cbn [length seq combine fold_left].
    rewrite IH. rewrite psum_head. cbn [nth]. rewrite Nat.add_0_r.
    rewrite (psum_ext _ (fun i => nth (a + S i) coeffs false && eval_monomial (nth (S i) (m :: ms) []) w)
                        (fun t => nth (S a + t) coeffs false && eval_monomial (nth t ms []) w))
      by (intros i _; rewrite Nat.add_succ_r; reflexivity).
    destruct (nth a coeffs false && eval_monomial m w), b, (parity _ _); reflexivity. }
  rewrite G. cbn [Nat.add]. destruct (parity _ _); reflexivity.
Qed.

(* increasing lists with the same members are the same *)
Lemma sorted_incl_eq : forall a b, StronglySorted lt a -> StronglySorted lt b -> incl a b -> length b <= length a -> a = b.
Proof.
  assert (ND : forall a, StronglySorted lt a -> NoDup a).
  { intros a So. induction So as [|x m So IH Fa]; [constructor|]. constructor; [|exact IH]. intros Hin.
    rewrite Forall_forall in Fa. apply Fa in Hin. lia. }
  intros a b Sa Sb I L. assert (J : incl b a) by (apply NoDup_length_incl; [apply ND; exact Sa|exact L|exact I]).
  clear L. revert b Sb I J. induction Sa as [|x a Sa IH Fa]; intros b Sb I J.
  - destruct b as [|y b]; [reflexivity|]. destruct (J y (or_introl eq_refl)).
  - destruct Sb as [|y b Sb Fb]; [destruct (I x (or_introl eq_refl))|]. rewrite Forall_forall in Fa, Fb.
    assert (x = y) as <-.
    { destruct (I x (or_introl eq_refl)) as [E|Hx]; [congruence|]. destruct (J y (or_introl eq_refl)) as [E|Hy]; [congruence|].
      apply Fa in Hy. apply Fb in Hx. lia. }
    f_equal. apply IH; [exact Sb| |].
    + intros z Hz. destruct (I z (or_intror Hz)) as [<-|Hb]; [apply Fa in Hz; lia|exact Hb].
    + intros z Hz. destruct (J z (or_intror Hz)) as [<-|Hb]; [apply Fb in Hz; lia|exact Hb].
Qed.
Lemma minimal_index (P : nat -> Prop) (f : nat -> nat) n : (forall t, {P t} + {~ P t}) -> (exists t, t < n /\ P t) ->
  exists t, t < n /\ P t /\ forall u, u < n -> P u -> f t <= f u.
Proof.
  intros D. induction n as [|n IH]; intros (t & Ht & Pt); [lia|].
  destruct (D n) as [Pn|Pn].
  - destruct (Nat.eq_dec n 0) as [->|Nn].
    { exists 0. split; [lia|]. split; [exact Pn|]. intros u Hu. replace u with 0 by lia. lia. }
    assert (Q : (exists t, t < n /\ P t) \/ ~ exists t, t < n /\ P t).
    { clear - D. induction n as [|n IH]; [right; intros (t & H & _); lia|]. destruct (D n); [left; exists n; auto|].
      destruct IH as [(t & H & Pt)|N]; [left; exists t; auto|]. right. intros (t & H & Pt).
      destruct (Nat.eq_dec t n) as [->|]; [contradiction|]. apply N. exists t. split; [lia|exact Pt]. }
    destruct Q as [Q|Q].
    + destruct (IH Q) as (m & Hm & Pm & Mm). destruct (Nat.le_gt_cases (f m) (f n)).
      * exists m. split; [lia|]. split; [exact Pm|]. intros u Hu Pu. destruct (Nat.eq_dec u n) as [->|]; [lia|]. apply Mm; [lia|exact Pu].
      * exists n. split; [lia|]. split; [exact Pn|]. intros u Hu Pu. destruct (Nat.eq_dec u n) as [->|]; [lia|].
        specialize (Mm u ltac:(lia) Pu). lia.
    + exists n. split; [lia|]. split; [exact Pn|]. intros u Hu Pu. destruct (Nat.eq_dec u n) as [->|]; [lia|].
      exfalso. apply Q. exists u. split; [lia|exact Pu].
  - assert (Q : exists t, t < n /\ P t) by (exists t; split; [destruct (Nat.eq_dec t n) as [->|]; [contradiction|lia]|exact Pt]).
    destruct (IH Q) as (m & Hm & Pm & Mm). exists m. split; [lia|]. split; [exact Pm|]. intros u Hu Pu.
    destruct (Nat.eq_dec u n) as [->|]; [contradiction|]. apply Mm; [lia|exact Pu].
Qed.

(* the point whose bits are the members of a list *)
Fixpoint indicator (n : nat) (m : list nat) : nat :=
  match n with 0 => 0 | S n' => indicator n' m + (if existsb (Nat.eqb n') m then 2 ^ n' else 0) end.
Lemma indicator_spec m : forall n, indicator n m < 2 ^ n /\ forall i, i < n -> Nat.testbit (indicator n m) i = existsb (Nat.eqb i) m.
Proof.
  induction n as [|n [B I]]; [split; [cbn; lia|intros i Hi; lia]|]. cbn [indicator]. split.
  - cbn [Nat.pow]. destruct (existsb (Nat.eqb n) m); lia.
  - intros i Hi. destruct (existsb (Nat.eqb n) m) eqn:E.
    + destruct (Nat.eq_dec i n) as [->|N].
      * rewrite E. rewrite Nat.testbit_eqb. replace (indicator n m + 2 ^ n) with (indicator n m + 1 * 2 ^ n) by lia.
        rewrite Nat.div_add by (apply Nat.pow_nonzero; lia). rewrite Nat.div_small by exact B. reflexivity.
      * rewrite <- I by lia. rewrite !Nat.testbit_eqb.
        replace (2 ^ n) with (2 * 2 ^ (n - i - 1) * 2 ^ i).
        2:{ replace (2 * 2 ^ (n - i - 1)) with (2 ^ (S (n - i - 1))) by reflexivity. rewrite <- Nat.pow_add_r. f_equal. lia. }
        rewrite Nat.div_add by (apply Nat.pow_nonzero; lia).
        rewrite (Nat.mul_comm 2), Nat.mod_add by lia. reflexivity.
    + rewrite Nat.add_0_r. destruct (Nat.eq_dec i n) as [->|N]; [|apply I; lia].
      rewrite E. rewrite Nat.testbit_eqb, Nat.div_small by exact B. reflexivity.
Qed.
Lemma point_nth n x i : i < n -> nth i (point n x) false = Nat.testbit x i.
Proof.
  intros H. unfold point. rewrite nth_indep with (d' := Nat.testbit x 0) by (rewrite map_length, seq_length; exact H).
  rewrite (map_nth (fun i => Nat.testbit x i)). rewrite seq_nth by exact H. reflexivity.
Qed.
Lemma anf_nonzero n d cs : (exists t, t < length (monomials n d) /\ nth t cs false = true) -> exists x, x < 2 ^ n /\ eval_anf cs n d x = true.
Proof.
  intros Ex. destruct (minimal_index (fun t => nth t cs false = true) (fun t => length (nth t (monomials n d) [])) _
    (fun t => bool_dec (nth t cs false) true) Ex) as (t & Ht & Pt & Mt).
  set (m := nth t (monomials n d) []) in *. destruct (indicator_spec m n) as [B I]. exists (indicator n m). split; [exact B|].
  assert (Hm : In m (monomials n d)) by (apply nth_In; exact Ht). apply monomials_in in Hm as Hm'. destruct Hm' as (So & Be & Le).
  assert (EM : forall u, u < length (monomials n d) -> eval_monomial (nth u (monomials n d) []) (point n (indicator n m)) = true <-> incl (nth u (monomials n d) []) m).
  { intros u Hu. assert (Hin : In (nth u (monomials n d) []) (monomials n d)) by (apply nth_In; exact Hu).
    apply monomials_in in Hin as (_ & Bu & _). unfold eval_monomial. rewrite forallb_forall. split; intros H v Hv.
    - specialize (H v Hv). rewrite point_nth, I in H by (apply Bu; exact Hv). apply existsb_exists in H as (y & Hy & E).
      apply Nat.eqb_eq in E. subst y. exact Hy.
    - rewrite point_nth, I by (apply Bu; exact Hv). apply existsb_exists. exists v. split; [apply H; exact Hv|apply Nat.eqb_refl]. }
  unfold eval_anf. rewrite feedback_sum. rewrite (psum_single _ t).
  - rewrite Pt. cbn [andb]. apply EM; [exact Ht|]. intros v Hv. exact Hv.
  - exact Ht.
  - intros u Hu N. destruct (nth u cs false) eqn:Eu; [|reflexivity]. cbn [andb].
    destruct (eval_monomial (nth u (monomials n d) []) (point n (indicator n m))) eqn:E; [exfalso|reflexivity].
    apply EM in E; [|exact Hu]. specialize (Mt u Hu Eu).
    assert (Hin : In (nth u (monomials n d) []) (monomials n d)) by (apply nth_In; exact Hu). apply monomials_in in Hin as (Su & _ & _).
    pose proof (sorted_incl_eq _ _ Su So E Mt) as Eq. unfold m in Eq.
    assert (u = t) by (apply (proj1 (NoDup_nth _ []) (monomials_nodup n d)); assumption). lia.
Qed.
