(* Massey's theorem for the model of BmModel.v *)
From Coq Require Import List Lia Bool Arith Ring.
Import ListNotations.
From Verif Require Import BoolFnProofs BmModel.

Lemma upd_length {A} (l : list A) : forall i v, length (upd l i v) = length l.
Proof. induction l as [|x l IH]; intros [|i] v; cbn [upd length]; auto. Qed.
Lemma upd_nth {A} (l : list A) d : forall i v j, i < length l -> nth j (upd l i v) d = if j =? i then v else nth j l d.
Proof.
  induction l as [|x l IH]; intros [|i] v [|j] H; cbn [upd nth length Nat.eqb] in *; try lia; auto.
  apply IH. lia.
Qed.

Section massey.
Context {F : Type} (zero one : F) (add sub mul : F -> F -> F) (opp inv : F -> F) (eqb : F -> F -> bool).
Context (RT : ring_theory zero one add mul sub opp (@eq F)).
Context (inv_r : forall x, x <> zero -> mul x (inv x) = one).
Context (eqb_eq : forall x y, eqb x y = true <-> x = y).
Context (one_zero : one <> zero).
Add Ring FR : RT.

Notation total := (sum zero add).
Notation sum_app := (sum_app zero one add mul sub opp RT).
Notation sum_mul := (sum_mul zero one add mul sub opp RT).
Notation sum_add := (sum_add zero one add mul sub opp RT).
Notation sum_zero := (sum_zero zero one add mul sub opp RT).
Notation sum_swap := (sum_swap zero one add mul sub opp RT).
Notation sum_ext := (sum_ext zero add).

(* the discrepancy of the polynomial C of length L at position i *)
Definition dis (s C : nat -> F) (L i : nat) : F := total (S L) (fun j => mul (C j) (s (i - j))).
(* C of length L generates the first N elements *)
Definition gen (s C : nat -> F) (L N : nat) : Prop := C 0 = one /\ forall i, L <= i < N -> dis s C L i = zero.

Lemma sum_head k h : total (S k) h = add (h 0) (total k (fun i => h (S i))).
Proof. change (S k) with (1 + k). rewrite sum_app. cbn [sum]. f_equal. ring. Qed.
Lemma sum_zeros k h : (forall i, i < k -> h i = zero) -> total k h = zero.
Proof. intros H. rewrite (sum_ext k h (fun _ => zero) H). apply sum_zero. Qed.
Lemma sum_first k h : (forall i, 0 < i < S k -> h i = zero) -> total (S k) h = h 0.
Proof. intros H. rewrite sum_head, (sum_zeros k) by (intros i Hi; apply H; lia). ring. Qed.

Lemma gen_weaken s C L N M : M <= N -> gen s C L N -> gen s C L M.
Proof. intros H [A B]. split; [exact A|]. intros i Hi. apply B. lia. Qed.

(* two registers, one of which stops at N and one of which goes on *)
Lemma massey s C L C' L' N : gen s C L N -> L <= N -> dis s C L N <> zero -> gen s C' L' (S N) -> N + 1 <= L + L'.
Proof.
  intros [C0 G] HL HD [C0' G']. destruct (Nat.le_gt_cases (N + 1) (L + L')) as [|Hlt]; [assumption|]. exfalso. apply HD.
  assert (R : total (S L') (fun j => total (S L) (fun k => mul (C' j) (mul (C k) (s (N - j - k))))) = dis s C L N).
  { rewrite sum_first.
    - rewrite C0', Nat.sub_0_r. unfold dis. apply sum_ext. intros k _. ring.
    - intros j Hj. rewrite <- sum_mul. fold (dis s C L (N - j)). rewrite G by lia. ring. }
  rewrite <- R. rewrite sum_swap.
  apply sum_zeros. intros k Hk.
  rewrite (sum_ext _ _ (fun j => mul (C k) (mul (C' j) (s (N - k - j))))).
  2:{ intros j _. replace (N - j - k) with (N - k - j) by lia. ring. }
  rewrite <- sum_mul. fold (dis s C' L' (N - k)). rewrite G' by lia. ring.
Qed.

Lemma dis_pad s C L L' i : (forall j, L < j -> C j = zero) -> L <= L' -> dis s C L' i = dis s C L i.
Proof.
  intros H HL. unfold dis. replace (S L') with (S L + (L' - L)) by lia. rewrite sum_app.
  rewrite (sum_zeros (L' - L)); [ring|]. intros k Hk. rewrite H by lia. ring.
Qed.

Lemma fold_sum k h : forall z, fold_left (fun d i => add d (h i)) (seq 1 k) z = add z (total k (fun i => h (S i))).
Proof.
  induction k as [|k IH]; intros z; [cbn; ring|]. rewrite seq_S, fold_left_app, IH. cbn [fold_left sum Nat.add]. ring.
Qed.
Notation discrepancy := (discrepancy zero add mul).
Notation correct := (correct zero sub mul eqb).
Notation at_ l := (fun i => nth i l zero).

Lemma discrepancy_dis s st nn : nth 0 (pc st) zero = one ->
  discrepancy s st nn = dis (at_ s) (at_ (pc st)) (len st) nn.
Proof.
  intros H. unfold BmModel.discrepancy, dis. rewrite fold_sum, sum_head. rewrite H, Nat.sub_0_r. ring.
Qed.

Lemma correct_spec n m coef b c : length c = n + 1 ->
  length (correct n m coef b c) = n + 1
  /\ forall j, nth j (correct n m coef b c) zero =
       if (m <=? j) && (j <=? n) then sub (nth j c zero) (mul coef (nth (j - m) b zero)) else nth j c zero.
Proof.
  intros Lc. unfold BmModel.correct.
  assert (G : forall k, let r := fold_left (fun c i =>
      if (i + m <=? n) && negb (eqb (nth i b zero) zero)
      then upd c (i + m) (sub (nth (i + m) c zero) (mul coef (nth i b zero))) else c) (seq 0 k) c in
    length r = n + 1 /\ forall j, nth j r zero =
       if (m <=? j) && (j <=? n) && (j - m <? k) then sub (nth j c zero) (mul coef (nth (j - m) b zero)) else nth j c zero).
  { induction k as [|k [IL IN]]; intros r; subst r.
    - cbn [seq fold_left]. split; [exact Lc|]. intros j. replace (j - m <? 0) with false by (symmetry; apply Nat.ltb_ge; lia).
      rewrite andb_false_r. reflexivity.
    - rewrite seq_S, fold_left_app. cbn [fold_left Nat.add].
      set (r := fold_left _ (seq 0 k) c) in *.
      destruct (Nat.leb_spec (k + m) n) as [Hk|Hk]; cbn [andb].
      + destruct (eqb (nth k b zero) zero) eqn:Eb; cbn [negb].
        * split; [exact IL|]. intros j. rewrite IN.
          destruct (Nat.leb_spec m j), (Nat.leb_spec j n), (Nat.ltb_spec (j - m) k), (Nat.ltb_spec (j - m) (S k)); cbn [andb]; try reflexivity; try lia.
          assert (j - m = k) as -> by lia. apply eqb_eq in Eb. rewrite Eb. ring.
        * split; [rewrite upd_length; exact IL|]. intros j. rewrite upd_nth by lia. rewrite !IN.
          destruct (Nat.eqb_spec j (k + m)) as [->|Hj].
          -- replace (k + m - m) with k by lia.
             destruct (Nat.leb_spec m (k + m)), (Nat.leb_spec (k + m) n), (Nat.ltb_spec k k), (Nat.ltb_spec k (S k)); cbn [andb]; try lia. reflexivity.
          -- destruct (Nat.leb_spec m j), (Nat.leb_spec j n), (Nat.ltb_spec (j - m) k), (Nat.ltb_spec (j - m) (S k)); cbn [andb]; try reflexivity; lia.
      + split; [exact IL|]. intros j. rewrite IN.
        destruct (Nat.leb_spec m j), (Nat.leb_spec j n), (Nat.ltb_spec (j - m) k), (Nat.ltb_spec (j - m) (S k)); cbn [andb]; try reflexivity; lia. }
  destruct (G (n + 1)) as [GL GN]. split; [exact GL|]. intros j. rewrite GN.
  destruct (Nat.leb_spec m j), (Nat.leb_spec j n), (Nat.ltb_spec (j - m) (n + 1)); cbn [andb]; try reflexivity; lia.
Qed.

(* subtracting a multiple of the shifted polynomial *)
Lemma dis_correct s C B C' coef m LB L' i : (forall j, j <= L' -> C' j = if m <=? j then sub (C j) (mul coef (B (j - m))) else C j) ->
  (forall j, LB < j -> B j = zero) -> m + LB <= L' ->
  dis s C' L' i = sub (dis s C L' i) (mul coef (dis s B LB (i - m))).
Proof.
  intros E HB HL.
  assert (S1 : dis s C' L' i = sub (dis s C L' i) (mul coef (total (S L') (fun j => if m <=? j then mul (B (j - m)) (s (i - j)) else zero)))).
  { unfold dis. rewrite (sum_ext _ (fun j => mul (C' j) (s (i - j)))
      (fun j => add (mul (C j) (s (i - j))) (mul (opp coef) (if m <=? j then mul (B (j - m)) (s (i - j)) else zero)))).
    2:{ intros j Hj. rewrite E by lia. destruct (m <=? j); ring. }
    rewrite <- sum_add, <- sum_mul. ring. }
  rewrite S1. f_equal. f_equal. replace (S L') with (m + (S (L' - m))) by lia. rewrite sum_app.
  rewrite (sum_zeros m). 2:{ intros j Hj. destruct (Nat.leb_spec m j); [lia|reflexivity]. }
  rewrite <- (dis_pad s B LB (L' - m)) by (assumption || lia).
  unfold dis. rewrite (sum_ext _ _ (fun j => mul (B j) (s (i - m - j)))); [ring|].
  intros j Hj. destruct (Nat.leb_spec m (m + j)); [|lia].
  replace (m + j - m) with j by lia. replace (i - (m + j)) with (i - m - j) by lia. reflexivity.
Qed.

Record inv_ (s : list F) (st : state) (N : nat) : Prop := {
  i_lc : length (pc st) = length s + 1;
  i_lb : length (pb st) = length s + 1;
  i_len : len st <= N;
  i_shift : 1 <= shift st;
  i_gen : gen (at_ s) (at_ (pc st)) (len st) N;
  i_deg : forall j, len st < j -> nth j (pc st) zero = zero;
  i_min : forall C L, gen (at_ s) C L N -> len st <= L;
  i_b : (len st = 0 /\ shift st = N + 1 /\ forall j, 0 < j -> nth j (pb st) zero = zero)
     \/ exists k LB, shift st + k = N /\ LB + len st = k + 1 /\ LB <= k
        /\ (forall j, LB < j -> nth j (pb st) zero = zero)
        /\ (forall i, LB <= i < k -> dis (at_ s) (at_ (pb st)) LB i = zero)
        /\ dis (at_ s) (at_ (pb st)) LB k = disc st /\ disc st <> zero
}.

Notation round := (round zero add sub mul inv eqb).
Notation rounds := (rounds zero add sub mul inv eqb).
Lemma round_inv s st N : N < length s -> inv_ s st N -> exists st', round s st N = Some st' /\ inv_ s st' (S N).
Proof.
  intros HN I. destruct I as [Lc Lb HL Hm [C0 G] Dg Mn Bs]. unfold BmModel.round.
  destruct (Nat.leb_spec (len st) (length s)); [|lia]. destruct (Nat.leb_spec (len st) N); [|lia]. cbn [andb].
  rewrite discrepancy_dis by exact C0. set (d := dis (at_ s) (at_ (pc st)) (len st) N).
  destruct (eqb d zero) eqn:Ed.
  - apply eqb_eq in Ed. eexists. split; [reflexivity|]. constructor; cbn [pc pb len shift disc]; auto; try lia.
    + split; [exact C0|]. intros i Hi. destruct (Nat.eq_dec i N) as [->|]; [exact Ed|]. apply G. lia.
    + intros C L HC. apply (Mn C). apply (gen_weaken _ _ _ (S N)); [lia|exact HC].
    + destruct Bs as [(A & B & C)|(k & LB & A & B)]; [left; repeat split; auto; lia|right].
      exists k, LB. split; [lia|exact B].
  - assert (Hd : d <> zero) by (intros E; apply eqb_eq in E; congruence).
    assert (Mn' : forall C L, gen (at_ s) C L (S N) -> len st <= L /\ N + 1 <= len st + L).
    { intros C L HC. split; [apply (Mn C), (gen_weaken _ _ _ (S N)); [lia|exact HC]|].
      apply (massey (at_ s) (at_ (pc st)) (len st) C L N); auto. split; [exact C0|exact G]. }
    destruct (correct_spec (length s) (shift st) (mul d (inv (disc st))) (pb st) (pc st) Lc) as [Lc' Nc'].
    set (c' := correct (length s) (shift st) (mul d (inv (disc st))) (pb st) (pc st)) in *.
    set (L' := if 2 * len st <=? N then N + 1 - len st else len st).
    assert (HL' : len st <= L' <= S N /\ N + 1 - len st <= L') by (unfold L'; destruct (Nat.leb_spec (2 * len st) N); lia).
    assert (C0' : nth 0 c' zero = one).
    { rewrite Nc'. destruct (Nat.leb_spec (shift st) 0); [lia|]. exact C0. }
    assert (Dg' : forall j, L' < j -> nth j c' zero = zero).
    { intros j Hj. rewrite Nc', Dg by lia. destruct (Nat.leb_spec (shift st) j), (Nat.leb_spec j (length s)); cbn [andb]; try reflexivity.
      assert (EB : nth (j - shift st) (pb st) zero = zero).
      { destruct Bs as [(A & B & C)|(k & LB & A & B & C & Dgb & _)]; [apply C; lia|apply Dgb; lia]. }
      rewrite EB. ring. }
    assert (G' : gen (at_ s) (at_ c') L' (S N)).
    { split; [exact C0'|]. intros i Hi.
      destruct Bs as [(A & B & C)|(k & LB & A & B & C & Dgb & Gb & Db & Nb)].
      - unfold L' in Hi. rewrite A in Hi. destruct (Nat.leb_spec (2 * 0) N); lia.
      - rewrite (dis_correct (at_ s) (at_ (pc st)) (at_ (pb st)) (at_ c') (mul d (inv (disc st))) (shift st) LB L' i); [|  |exact Dgb|lia].
        2:{ intros j Hj. rewrite Nc'. destruct (Nat.leb_spec j (length s)); [|lia]. rewrite andb_true_r. reflexivity. }
        rewrite (dis_pad _ _ (len st) L') by (assumption || lia).
        destruct (Nat.eq_dec i N) as [->|Hne].
        + replace (N - shift st) with k by lia. rewrite Db. fold d.
          transitivity (sub d (mul d (mul (disc st) (inv (disc st))))); [ring|]. rewrite inv_r by exact Nb. ring.
        + rewrite G by lia. rewrite Gb by lia. ring. }
    destruct (Nat.leb_spec (2 * len st) N) as [H2|H2]; (eexists; split; [reflexivity|]); constructor; cbn [pc pb len shift disc]; auto; try lia.
    + intros C L HC. apply Mn' in HC. lia.
    + right. exists N, (len st). repeat split; auto; try lia.
    + intros C L HC. apply Mn' in HC. lia.
    + destruct Bs as [(A & B & C)|(k & LB & A & B)]; [lia|]. right. exists k, LB. split; [lia|exact B].
Qed.

Lemma rounds_inv s k : forall N st, N + k <= length s -> inv_ s st N -> exists st', rounds s st (seq N k) = Some st' /\ inv_ s st' (N + k).
Proof.
  induction k as [|k IH]; intros N st HN I; cbn [seq BmModel.rounds].
  - exists st. rewrite Nat.add_0_r. auto.
  - destruct (round_inv s st N) as (st1 & -> & I1); [lia|exact I|]. destruct (IH (S N) st1) as (st2 & E & I2); [lia|exact I1|].
    exists st2. rewrite Nat.add_succ_r. auto.
Qed.
Lemma start_inv s : inv_ s (start zero one (length s)) 0.
Proof.
  constructor; cbn [start pc pb len shift disc]; try lia.
  - cbn [length]. rewrite repeat_length. lia.
  - cbn [length]. rewrite repeat_length. lia.
  - split; [reflexivity|]. intros; lia.
  - intros [|j] Hj; [lia|]. cbn [nth]. apply nth_repeat.
  - left. repeat split. intros [|j] Hj; [lia|]. cbn [nth]. apply nth_repeat.
Qed.

Notation berlekamp_massey_field := (berlekamp_massey_field zero one add sub mul inv eqb).
(* the polynomial of a list of taps *)
Definition poly (taps : list F) : nat -> F := fun i => nth i (one :: taps) zero.

Lemma gen_ext s C C' L N : (forall i, i <= L -> C i = C' i) -> gen s C L N -> gen s C' L N.
Proof.
  intros E [A B]. split; [rewrite <- E by lia; exact A|]. intros i Hi. rewrite <- (B i Hi).
  unfold dis. apply sum_ext. intros j Hj. rewrite E by lia. reflexivity.
Qed.

Lemma bm_spec s : exists L taps, berlekamp_massey_field s = Some (L, taps) /\ length taps = L /\ L <= length s
  /\ gen (at_ s) (poly taps) L (length s) /\ forall C L', gen (at_ s) C L' (length s) -> L <= L'.
Proof.
  destruct (rounds_inv s (length s) 0 _ (Nat.le_refl _) (start_inv s)) as (st & E & I).
  unfold BmModel.berlekamp_massey_field. rewrite E. destruct I as [Lc Lb HL Hm G Dg Mn Bs]. cbn [Nat.add] in *.
  destruct (Nat.leb_spec (len st) (length s)); [|lia].
  exists (len st), (firstn (len st) (skipn 1 (pc st))). split; [reflexivity|].
  split; [rewrite firstn_length, skipn_length, Lc; lia|]. split; [lia|]. split; [|exact Mn].
  apply (gen_ext _ (at_ (pc st))); [|exact G]. intros [|i] Hi; cbn [poly nth]; [apply G|].
  unfold poly. cbn [nth]. destruct (pc st) as [|c0 c]; [cbn in Lc; lia|]. cbn [skipn nth].
  rewrite <- (firstn_skipn (len st) c) at 1. rewrite app_nth1; [reflexivity|].
  rewrite firstn_length. cbn [length] in Lc. lia.
Qed.

(* the replayed register *)
Lemma tap_sum_spec s i : forall taps j acc out, (forall k, k < i -> nth_error out k = Some (nth k s zero)) -> j + length taps <= i ->
  tap_sum add mul taps out i j acc = Some (add acc (total (length taps) (fun k => mul (nth k taps zero) (nth (i - 1 - (j + k)) s zero)))).
Proof.
  induction taps as [|t taps IH]; intros j acc out H Hi; cbn [tap_sum length] in *.
  - cbn [sum]. f_equal. ring.
  - rewrite H by lia. rewrite IH by (assumption || lia). f_equal. rewrite sum_head. cbn [nth]. rewrite Nat.add_0_r.
    rewrite (sum_ext _ (fun i0 => mul (nth i0 taps zero) (nth (i - 1 - (j + S i0)) s zero)) (fun k => mul (nth k taps zero) (nth (i - 1 - (S j + k)) s zero))).
    2:{ intros k _. do 2 f_equal. lia. }
    ring.
Qed.
Lemma dis_poly s taps i : length taps <= i ->
  dis (at_ s) (poly taps) (length taps) i
  = add (nth i s zero) (total (length taps) (fun k => mul (nth k taps zero) (nth (i - 1 - k) s zero))).
Proof.
  intros Hi. unfold dis. rewrite sum_head. unfold poly. cbn [nth]. rewrite Nat.sub_0_r.
  rewrite (sum_ext _ (fun i0 => mul (nth i0 taps zero) (nth (i - S i0) s zero)) (fun k => mul (nth k taps zero) (nth (i - 1 - k) s zero))).
  2:{ intros k _. do 2 f_equal. lia. }
  ring.
Qed.

Lemma firstn_snoc {A} (l : list A) d i : i < length l -> firstn (S i) l = firstn i l ++ [nth i l d].
Proof.
  revert l. induction i as [|i IH]; intros [|x l] H; cbn [length] in H; try lia; [reflexivity|].
  cbn [firstn nth app]. f_equal. apply IH. lia.
Qed.

Notation lfsr_generate_field := (lfsr_generate_field zero add sub mul).
Notation replay := (replay zero add sub mul).
Lemma nth_error_firstn_nth s i k : i <= length s -> k < i -> nth_error (firstn i s) k = Some (nth k s zero).
Proof.
  intros Hi Hk. rewrite (nth_error_nth' _ zero) by (rewrite firstn_length; lia). f_equal.
  rewrite <- (firstn_skipn i s) at 2. rewrite app_nth1; [reflexivity|]. rewrite firstn_length. lia.
Qed.

Lemma replay_gen s taps : forall k i, length taps <= i -> i + k <= length s -> gen (at_ s) (poly taps) (length taps) (i + k) ->
  replay taps (seq i k) (firstn i s) = Some (firstn (i + k) s).
Proof.
  induction k as [|k IH]; intros i Hi Hk G; cbn [seq BmModel.replay]; [rewrite Nat.add_0_r; reflexivity|].
  rewrite (tap_sum_spec s) by (try lia; intros; apply nth_error_firstn_nth; lia).
  destruct G as [_ G]. pose proof (G i ltac:(lia)) as Gi. rewrite dis_poly in Gi by exact Hi.
  match goal with |- context [sub zero ?x] => replace (sub zero x) with (nth i s zero) end.
  2:{ cbn [Nat.add]. match goal with |- _ = sub zero (add zero ?t) => set (T := t) in * end.
      transitivity (sub (add (nth i s zero) T) T); [ring|]. rewrite Gi. ring. }
  rewrite <- firstn_snoc by lia. rewrite IH; [f_equal; f_equal; lia|lia|lia|]. split; [reflexivity|]. intros j Hj. apply G. lia.
Qed.
Lemma lfsr_gen s taps : length taps <= length s -> gen (at_ s) (poly taps) (length taps) (length s) ->
  lfsr_generate_field taps (firstn (length taps) s) (length s) = Some s.
Proof.
  intros HL G. unfold BmModel.lfsr_generate_field. rewrite firstn_length.
  replace (Nat.min (Nat.min (length taps) (Nat.min (length taps) (length s))) (length s)) with (length taps) by lia.
  rewrite firstn_firstn, Nat.min_id. rewrite replay_gen; [|lia|lia|].
  - rewrite firstn_firstn. rewrite firstn_all2 by lia. reflexivity.
  - replace (length taps + (length s - length taps)) with (length s) by lia. exact G.
Qed.

(* what is replayed obeys the recurrence *)
Lemma replay_spec taps : forall k i out r, length out = i -> length taps <= i -> replay taps (seq i k) out = Some r ->
  length r = i + k /\ firstn i r = out /\ forall j, i <= j < i + k -> dis (at_ r) (poly taps) (length taps) j = zero.
Proof.
  induction k as [|k IH]; intros i out r Lo Hi E; cbn [seq BmModel.replay] in E.
  - injection E as <-. split; [lia|]. split; [rewrite firstn_all2 by lia; reflexivity|intros; lia].
  - rewrite (tap_sum_spec out) in E.
    2:{ intros j Hj. apply nth_error_nth'. lia. }
    2:{ lia. }
    apply IH in E as (L & Fr & D); [|rewrite app_length; cbn [length]; lia|lia].
    split; [lia|].
    assert (Fi : firstn i r = out).
    { transitivity (firstn i (firstn (S i) r)); [rewrite firstn_firstn; f_equal; lia|].
      rewrite Fr. rewrite firstn_app, Lo, Nat.sub_diag. cbn [firstn]. rewrite app_nil_r. apply firstn_all2. lia. }
    split; [exact Fi|]. intros j Hj. destruct (Nat.eq_dec j i) as [->|]; [|apply D; lia].
    rewrite dis_poly by exact Hi.
    assert (Ni : forall q, q < S i -> nth q r zero = nth q (firstn (S i) r) zero).
    { intros q Hq. rewrite <- (firstn_skipn (S i) r) at 1. apply app_nth1. rewrite firstn_length. lia. }
    rewrite (Ni i) by lia. rewrite Fr. rewrite app_nth2 by lia. rewrite Lo, Nat.sub_diag. cbn [nth].
    rewrite (sum_ext _ (fun k0 => mul (nth k0 taps zero) (nth (i - 1 - k0) r zero)) (fun k0 => mul (nth k0 taps zero) (nth (i - 1 - (0 + k0)) out zero))).
    + ring.
    + intros q Hq. f_equal. cbn [Nat.add]. rewrite Ni by lia. rewrite Fr. apply app_nth1. lia.
Qed.
Lemma lfsr_back s taps : lfsr_generate_field taps (firstn (length taps) s) (length s) = Some s ->
  length taps <= length s -> gen (at_ s) (poly taps) (length taps) (length s).
Proof.
  intros E HL. unfold BmModel.lfsr_generate_field in E. rewrite firstn_length in E.
  replace (Nat.min (Nat.min (length taps) (Nat.min (length taps) (length s))) (length s)) with (length taps) in E by lia.
  rewrite firstn_firstn, Nat.min_id in E.
  destruct (replay taps (seq (length taps) (length s - length taps)) (firstn (length taps) s)) as [out|] eqn:Er; [|discriminate].
  apply replay_spec in Er as (Lr & Fr & D); [|rewrite firstn_length; lia|lia].
  rewrite firstn_all2 in E by lia. injection E as ->. split; [reflexivity|]. intros i Hi. apply D. lia.
Qed.

(* two registers of the same minimal length over at least twice the length agree *)
Lemma least_nonzero (E : nat -> F) L : (exists t, t <= L /\ E t <> zero /\ forall j, j < t -> E j = zero) \/ (forall j, j <= L -> E j = zero).
Proof.
  induction L as [|L [(t & A & B & C)|H]].
  - destruct (eqb (E 0) zero) eqn:E0.
    + right. intros j Hj. assert (j = 0) as -> by lia. apply eqb_eq. exact E0.
    + left. exists 0. split; [lia|]. split; [intros X; apply eqb_eq in X; congruence|intros; lia].
  - left. exists t. repeat split; auto; lia.
  - destruct (eqb (E (S L)) zero) eqn:E0.
    + right. intros j Hj. destruct (Nat.eq_dec j (S L)) as [->|]; [apply eqb_eq; exact E0|apply H; lia].
    + left. exists (S L). split; [lia|]. split; [intros X; apply eqb_eq in X; congruence|]. intros j Hj. apply H. lia.
Qed.
Lemma first_failure s C L M : forall k, gen s C L M -> gen s C L (M + k) \/ exists N, M <= N < M + k /\ gen s C L N /\ dis s C L N <> zero /\ L <= N.
Proof.
  induction k as [|k IH]; intros G; [left; rewrite Nat.add_0_r; exact G|].
  destruct (IH G) as [G1|(N & A & B)]; [|right; exists N; split; [lia|exact B]].
  destruct (Nat.le_gt_cases L (M + k)) as [HL|HL].
  - destruct (eqb (dis s C L (M + k)) zero) eqn:E.
    + left. apply eqb_eq in E. destruct G1 as [C0 G1]. split; [exact C0|]. intros i Hi.
      destruct (Nat.eq_dec i (M + k)) as [->|]; [exact E|apply G1; lia].
    + right. exists (M + k). split; [lia|]. split; [exact G1|]. split; [|exact HL]. intros X. apply eqb_eq in X. congruence.
  - left. destruct G1 as [C0 G1]. split; [exact C0|]. intros i Hi. apply G1. lia.
Qed.
Lemma unique s n L C C' : gen s C L n -> gen s C' L n -> (forall D L', gen s D L' n -> L <= L') -> 2 * L <= n ->
  forall i, i <= L -> C i = C' i.
Proof.
  intros [C0 G] [C0' G'] Mn H2. set (E := fun i => sub (C i) (C' i)).
  assert (GE : forall i, L <= i < n -> dis s E L i = zero).
  { intros i Hi. unfold dis, E.
    rewrite (sum_ext _ _ (fun j => add (mul (C j) (s (i - j))) (mul (opp one) (mul (C' j) (s (i - j)))))) by (intros; ring).
    rewrite <- sum_add, <- sum_mul. fold (dis s C L i) (dis s C' L i). rewrite G, G' by exact Hi. ring. }
  destruct (least_nonzero E L) as [(t & Ht & Nt & Zt)|Z].
  2:{ intros i Hi. specialize (Z i Hi). unfold E in Z. transitivity (add (sub (C i) (C' i)) (C' i)); [ring|]. rewrite Z. ring. }
  exfalso. assert (1 <= t). { destruct t; [|lia]. exfalso. apply Nt. unfold E. rewrite C0, C0'. ring. }
  set (D := fun j => mul (inv (E t)) (E (t + j))).
  assert (GD : gen s D (L - t) (n - t)).
  { split; [unfold D; rewrite Nat.add_0_r; transitivity (mul (E t) (inv (E t))); [ring|apply inv_r; exact Nt]|].
    intros i Hi. specialize (GE (i + t) ltac:(lia)). unfold dis in GE.
    replace (S L) with (t + S (L - t)) in GE by lia. rewrite sum_app in GE. rewrite (sum_zeros t) in GE by (intros j Hj; rewrite Zt by lia; ring).
    unfold dis, D. rewrite (sum_ext _ _ (fun j => mul (inv (E t)) (mul (E (t + j)) (s (i + t - (t + j)))))).
    2:{ intros j _. replace (i + t - (t + j)) with (i - j) by lia. ring. }
    rewrite <- sum_mul. transitivity (mul (inv (E t)) (add zero (total (S (L - t)) (fun j => mul (E (t + j)) (s (i + t - (t + j))))))); [ring|].
    rewrite GE. ring. }
  destruct (first_failure s D (L - t) (n - t) t GD) as [G1|(N & HN & G1 & ND & HLN)].
  - replace (n - t + t) with n in G1 by lia. apply Mn in G1. lia.
  - pose proof (massey s D (L - t) C L N G1 HLN ND) as Ms.
    assert (gen s C L (S N)) by (split; [exact C0|]; intros i Hi; apply G; lia). specialize (Ms H0). lia.
Qed.
End massey.
