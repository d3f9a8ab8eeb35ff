(* Elimination over GF(2) and the monomials *)
From Coq Require Import List Lia Bool Arith.
Import ListNotations.
From Verif Require Import BoolFnProofs BmProofs AlgModel.

Notation parity := (sum false xorb).
Notation psum_ext := (sum_ext false xorb).
Notation psum_add := (sum_add false true xorb andb xorb (fun b => b) BT).
Notation psum_zeros := (sum_zeros false true xorb xorb andb (fun b => b) BT).
Notation psum_single := (sum_single false true xorb andb xorb (fun b => b) BT).
Notation psum_head := (sum_head false true xorb xorb andb (fun b => b) BT).

Lemma upd_length {A} (l : list A) : forall i v, length (upd l i v) = length l.
Proof. induction l as [|x l IH]; intros [|i] v; cbn [upd length]; auto. Qed.
Lemma upd_nth {A} (l : list A) d : forall i v j, i < length l -> nth j (upd l i v) d = if j =? i then v else nth j l d.
Proof.
  induction l as [|x l IH]; intros [|i] v [|j] H; cbn [upd nth length Nat.eqb] in *; try lia; auto.
  apply IH. lia.
Qed.

Section elimination.
Context {R : Type} (bit : R -> nat -> bool) (xor : R -> R -> R) (dflt : R) (wf : R -> Prop).
Context (wf_xor : forall a b, wf a -> wf b -> wf (xor a b)).
Context (bit_xor : forall a b c, wf a -> wf b -> bit (xor a b) c = xorb (bit a c) (bit b c)).
Notation find_row := (find_row bit dflt).
Notation swap := (swap dflt).
Notation clear := (clear bit xor dflt).
Notation elim_step := (elim_step bit xor dflt).
Notation eliminate := (eliminate bit xor dflt).

Lemma find_row_spec m c is : match find_row m c is with
  | Some i => In i is /\ bit (nth i m dflt) c = true
  | None => forall i, In i is -> bit (nth i m dflt) c = false end.
Proof.
  induction is as [|i is IH]; cbn [AlgModel.find_row]; [intros i []|].
  destruct (bit (nth i m dflt) c) eqn:E; [split; [left; reflexivity|exact E]|].
  destruct (find_row m c is) as [j|].
  - destruct IH. split; [right; assumption|assumption].
  - intros j [<-|Hj]; [exact E|exact (IH j Hj)].
Qed.
Lemma swap_spec m i j : i < length m -> j < length m -> length (swap m i j) = length m
  /\ forall k, nth k (swap m i j) dflt = if k =? j then nth i m dflt else if k =? i then nth j m dflt else nth k m dflt.
Proof.
  intros Hi Hj. unfold AlgModel.swap. rewrite !upd_length. split; [reflexivity|]. intros k.
  rewrite upd_nth by (rewrite upd_length; exact Hj). destruct (k =? j); [reflexivity|]. rewrite upd_nth by exact Hi. reflexivity.
Qed.
Lemma clear_spec m r c : r < length m -> length (clear m r c) = length m
  /\ forall k, k < length m -> nth k (clear m r c) dflt =
       if negb (k =? r) && bit (nth k m dflt) c then xor (nth k m dflt) (nth r m dflt) else nth k m dflt.
Proof.
  intros Hr. unfold AlgModel.clear.
  assert (G : forall k, k <= length m -> let m' := fold_left (fun mat i => if negb (i =? r) && bit (nth i mat dflt) c
        then upd mat i (xor (nth i mat dflt) (nth r mat dflt)) else mat) (seq 0 k) m in
     length m' = length m /\ forall j, nth j m' dflt =
       if (j <? k) && (negb (j =? r) && bit (nth j m dflt) c) then xor (nth j m dflt) (nth r m dflt) else nth j m dflt).
  { induction k as [|k IH]; intros Hk m'; subst m'; [split; [reflexivity|intros j; reflexivity]|].
    rewrite seq_S, fold_left_app. cbn [fold_left Nat.add]. destruct (IH ltac:(lia)) as [IL IN].
    set (mk := fold_left _ (seq 0 k) m) in *.
    assert (Nr : nth r mk dflt = nth r m dflt) by (rewrite IN, Nat.eqb_refl; cbn [negb andb]; rewrite andb_false_r; reflexivity).
    assert (Nk : nth k mk dflt = nth k m dflt) by (rewrite IN, Nat.ltb_irrefl; reflexivity).
    rewrite Nr, Nk. destruct (negb (k =? r) && bit (nth k m dflt) c) eqn:E.
    - rewrite upd_length. split; [exact IL|]. intros j. rewrite upd_nth by lia. rewrite IN.
      destruct (Nat.eqb_spec j k) as [->|Nj]; [rewrite E; destruct (Nat.ltb_spec k (S k)); [reflexivity|lia]|].
      destruct (Nat.ltb_spec j k), (Nat.ltb_spec j (S k)); try lia; reflexivity.
    - split; [exact IL|]. intros j. rewrite IN.
      destruct (Nat.eq_dec j k) as [->|Nj]; [rewrite E, !andb_false_r; reflexivity|].
      destruct (Nat.ltb_spec j k), (Nat.ltb_spec j (S k)); try lia; reflexivity. }
  destruct (G (length m) (Nat.le_refl _)) as [GL GN]. split; [exact GL|]. intros k Hk. rewrite GN.
  destruct (Nat.ltb_spec k (length m)); [reflexivity|lia].
Qed.

(* what a row evaluates to under an assignment, linearly *)
Definition linear (ev : R -> bool) : Prop := forall a b, wf a -> wf b -> ev (xor a b) = xorb (ev a) (ev b).
Definition rows_zero (ev : R -> bool) (m : list R) : Prop := forall k, k < length m -> ev (nth k m dflt) = false.
Record reduced (rows : list R) (ncols : nat) (st : elim) (c : nat) : Prop := {
  r_len : length (mat st) = length rows;
  r_wf : forall k, k < length (mat st) -> wf (nth k (mat st) dflt);
  r_piv : length (pivot st) = ncols;
  r_rank : rank st <= length rows;
  r_col : forall col k, nth col (pivot st) None = Some k -> col < c /\ k < rank st /\ forall i, i < length rows -> bit (nth i (mat st) dflt) col = (i =? k);
  r_row : forall k, k < rank st -> exists col, nth col (pivot st) None = Some k;
  r_inj : forall a b k, nth a (pivot st) None = Some k -> nth b (pivot st) None = Some k -> a = b;
  r_rest : forall i col, rank st <= i < length rows -> col < c -> bit (nth i (mat st) dflt) col = false;
  r_ev : forall ev, linear ev -> (rows_zero ev rows <-> rows_zero ev (mat st))
}.

Lemma step_reduced rows ncols st c : c < ncols -> reduced rows ncols st c -> reduced rows ncols (elim_step st c) (S c).
Proof.
  intros Hc I. destruct I as [Len Wf Piv Rk Col Row Inj Rest Ev]. unfold AlgModel.elim_step.
  pose proof (find_row_spec (mat st) c (seq (rank st) (length (mat st) - rank st))) as F.
  destruct (find_row (mat st) c (seq (rank st) (length (mat st) - rank st))) as [pr|].
  2:{ constructor; auto.
      - intros col k E. destruct (Col col k E) as (A & B). split; [lia|exact B].
      - intros i col Hi Hcol. destruct (Nat.eq_dec col c) as [->|]; [|apply Rest; lia]. apply F. apply in_seq. lia. }
  destruct F as [Fi Fb]. apply in_seq in Fi. set (r := rank st) in *.
  destruct (swap_spec (mat st) r pr) as [SL SN]; [lia|lia|]. set (m1 := swap (mat st) r pr) in *.
  destruct (clear_spec m1 r c) as [CL CN]; [lia|]. set (m2 := clear m1 r c) in *.
  assert (M1r : nth r m1 dflt = nth pr (mat st) dflt).
  { rewrite SN. destruct (Nat.eqb_spec r pr) as [E|]; [rewrite <- E; reflexivity|]. rewrite Nat.eqb_refl. reflexivity. }
  assert (W1 : forall k, k < length rows -> wf (nth k m1 dflt)).
  { intros k Hk. rewrite SN. destruct (k =? pr); [apply Wf; lia|]. destruct (k =? r); apply Wf; lia. }
  assert (B2 : forall i col, i < length rows -> bit (nth i m2 dflt) col =
     if negb (i =? r) && bit (nth i m1 dflt) c then xorb (bit (nth i m1 dflt) col) (bit (nth r m1 dflt) col) else bit (nth i m1 dflt) col).
  { intros i col Hi. rewrite CN by lia. destruct (negb (i =? r) && bit (nth i m1 dflt) c); [|reflexivity]. apply bit_xor; apply W1; lia. }
  assert (NP : forall k, nth c (pivot st) None <> Some k) by (intros k E; apply Col in E; lia).
  assert (PN : forall col k, nth col (upd (pivot st) c (Some r)) None = Some k -> (col = c /\ k = r) \/ (col <> c /\ nth col (pivot st) None = Some k)).
  { intros col k E. rewrite upd_nth in E by lia. destruct (Nat.eqb_spec col c); [left|right]; split; congruence. }
  constructor; cbn [mat pivot rank].
  - lia.
  - intros k Hk. rewrite CN by lia. destruct (negb (k =? r) && bit (nth k m1 dflt) c); [apply wf_xor|]; apply W1; lia.
  - rewrite upd_length. exact Piv.
  - lia.
  - intros col k E. apply PN in E as [[-> ->]|[Nc E]].
    + split; [lia|]. split; [lia|]. intros i Hi. rewrite B2 by exact Hi.
      destruct (Nat.eqb_spec i r) as [->|Ni]; cbn [negb andb]; [rewrite M1r; exact Fb|].
      destruct (bit (nth i m1 dflt) c); [rewrite M1r, Fb; reflexivity|reflexivity].
    + destruct (Col col k E) as (A & B & C). split; [lia|]. split; [lia|]. intros i Hi. rewrite B2 by exact Hi.
      assert (Z : bit (nth r m1 dflt) col = false) by (rewrite M1r, C by lia; apply Nat.eqb_neq; lia).
      assert (Y : bit (nth i m1 dflt) col = (i =? k)).
      { rewrite SN. destruct (Nat.eqb_spec i pr) as [->|]; [rewrite C by lia; rewrite (proj2 (Nat.eqb_neq r k)), (proj2 (Nat.eqb_neq pr k)) by lia; reflexivity|].
        destruct (Nat.eqb_spec i r) as [->|]; [rewrite C by lia; rewrite (proj2 (Nat.eqb_neq r k)), (proj2 (Nat.eqb_neq pr k)) by lia; reflexivity|].
        apply C. exact Hi. }
      rewrite Y, Z, xorb_false_r. destruct (_ && _); reflexivity.
  - intros k Hk. destruct (Nat.eq_dec k r) as [->|].
    + exists c. rewrite upd_nth by lia. rewrite Nat.eqb_refl. reflexivity.
    + destruct (Row k ltac:(lia)) as [col E]. exists col. rewrite upd_nth by lia.
      destruct (Nat.eqb_spec col c) as [->|]; [exfalso; exact (NP k E)|exact E].
  - intros a b k Ea Eb. apply PN in Ea as [[-> ->]|[Na Ea]], Eb as [[-> Ek]|[Nb Eb]].
    + reflexivity.
    + apply Col in Eb. lia.
    + subst k. apply Col in Ea. lia.
    + exact (Inj a b k Ea Eb).
  - intros i col Hi Hcol. rewrite B2 by lia. destruct (Nat.eqb_spec i r); [lia|]. cbn [negb andb].
    destruct (Nat.eq_dec col c) as [->|Ncol].
    + destruct (bit (nth i m1 dflt) c); [rewrite M1r, Fb; reflexivity|reflexivity].
    + assert (Z : bit (nth r m1 dflt) col = false) by (rewrite M1r; apply Rest; lia).
      assert (Y : bit (nth i m1 dflt) col = false).
      { rewrite SN. destruct (Nat.eqb_spec i pr); [apply Rest; lia|]. destruct (Nat.eqb_spec i r); [lia|]. apply Rest; lia. }
      rewrite Y, Z. destruct (bit (nth i m1 dflt) c); reflexivity.
  - intros ev Li. rewrite (Ev ev Li). unfold rows_zero.
    transitivity (forall k, k < length rows -> ev (nth k m1 dflt) = false).
    + split; intros H k Hk.
      * rewrite SN. destruct (k =? pr); [apply H; lia|]. destruct (k =? r); apply H; lia.
      * destruct (Nat.eq_dec k pr) as [->|]; [rewrite <- M1r; apply H; lia|].
        destruct (Nat.eq_dec k r) as [->|].
        -- specialize (H pr ltac:(lia)). rewrite SN, Nat.eqb_refl in H. exact H.
        -- specialize (H k ltac:(lia)). rewrite SN in H. rewrite (proj2 (Nat.eqb_neq k pr)), (proj2 (Nat.eqb_neq k r)) in H by assumption. exact H.
    + rewrite CL, SL, Len. split; intros H k Hk.
      * rewrite CN by lia. destruct (negb (k =? r) && bit (nth k m1 dflt) c); [|apply H; exact Hk].
        rewrite Li by (apply W1; lia). rewrite !H by lia. reflexivity.
      * specialize (H k Hk) as Hk'. rewrite CN in Hk' by lia. destruct (negb (k =? r) && bit (nth k m1 dflt) c); [|exact Hk'].
        rewrite Li in Hk' by (apply W1; lia). specialize (H r ltac:(lia)). rewrite CN in H by lia. rewrite Nat.eqb_refl in H. cbn [negb andb] in H.
        rewrite H, xorb_false_r in Hk'. exact Hk'.
Qed.

Lemma eliminate_reduced rows ncols : (forall k, k < length rows -> wf (nth k rows dflt)) -> reduced rows ncols (eliminate rows ncols) ncols.
Proof.
  intros Wf. unfold AlgModel.eliminate.
  assert (G : forall k, k <= ncols -> reduced rows ncols (fold_left elim_step (seq 0 k) (mk rows (repeat None ncols) 0)) k).
  { induction k as [|k IH]; intros Hk.
    - cbn [seq fold_left]. constructor; cbn [mat pivot rank]; auto; try lia.
      + apply repeat_length.
      + intros col j E. rewrite nth_repeat in E. discriminate.
      + intros a b j E. rewrite nth_repeat in E. discriminate.
      + intros ev _. reflexivity.
    - rewrite seq_S, fold_left_app. cbn [fold_left Nat.add]. apply step_reduced; [lia|]. apply IH. lia. }
  apply G. lia.
Qed.

(* the sum of a pivot row under an assignment determined at the pivots *)
Lemma pivot_sum rows ncols st (x : nat -> bool) i col : reduced rows ncols st ncols -> i < length rows -> nth col (pivot st) None = Some i ->
  parity ncols (fun j => bit (nth i (mat st) dflt) j && x j)
  = xorb (x col) (parity ncols (fun j => match nth j (pivot st) None with Some _ => false | None => bit (nth i (mat st) dflt) j && x j end)).
Proof.
  intros I Hi E. destruct I as [Len Wf Piv Rk Col Row Inj Rest Ev].
  assert (Hc : col < ncols) by (apply Col in E; lia).
  rewrite (psum_ext _ _ (fun j => xorb (if j =? col then x col else false)
     (match nth j (pivot st) None with Some _ => false | None => bit (nth i (mat st) dflt) j && x j end))).
  - rewrite <- psum_add. f_equal. rewrite (psum_single _ col); [rewrite Nat.eqb_refl; reflexivity|exact Hc|].
    intros j Hj N. rewrite (proj2 (Nat.eqb_neq j col)); [reflexivity|congruence].
  - intros j Hj. destruct (nth j (pivot st) None) as [k|] eqn:Ej.
    + destruct (Col j k Ej) as (_ & _ & C). rewrite C by exact Hi.
      destruct (Nat.eqb_spec j col) as [->|N].
      * assert (k = i) as -> by congruence. rewrite Nat.eqb_refl. destruct (x col); reflexivity.
      * destruct (Nat.eqb_spec i k) as [->|]; [exfalso; apply N; exact (Inj j col k Ej E)|]. reflexivity.
    + destruct (Nat.eqb_spec j col) as [->|N]; [congruence|]. destruct (_ && _); reflexivity.
Qed.
End elimination.

Lemma xor_bits_nth a : forall b c, length a = length b -> nth c (xor_bits a b) false = xorb (nth c a false) (nth c b false).
Proof.
  unfold xor_bits. induction a as [|x a IH]; intros [|y b] c L; cbn [length] in L; try discriminate; [destruct c; reflexivity|].
  destruct c as [|c]; cbn [combine map nth]; [reflexivity|]. apply IH. lia.
Qed.
Lemma xor_bits_length a b : length a = length b -> length (xor_bits a b) = length a.
Proof. intros L. unfold xor_bits. rewrite map_length, combine_length. lia. Qed.

(* the value of a row of coefficients at an assignment *)
Definition dot (ncols : nat) (r x : list bool) : bool := parity ncols (fun j => nth j r false && nth j x false).
Lemma dot_xor n a b x : length a = n -> length b = n -> dot n (xor_bits a b) x = xorb (dot n a x) (dot n b x).
Proof.
  intros La Lb. unfold dot. rewrite psum_add. apply psum_ext. intros j _. rewrite xor_bits_nth by congruence.
  destruct (nth j a false), (nth j b false), (nth j x false); reflexivity.
Qed.

Lemma forall_nth {A} (P : A -> Prop) l d : (forall a, In a l -> P a) <-> (forall k, k < length l -> P (nth k l d)).
Proof.
  split; intros H; [intros k Hk; apply H, nth_In, Hk|]. intros a Ha. apply (In_nth _ _ d) in Ha as (k & Hk & <-). auto.
Qed.

Lemma solve_some rows ncols x : (forall r, In r rows -> length (fst r) = ncols) -> solve_gf2_system rows ncols = Some x ->
  length x = ncols /\ forall r, In r rows -> dot ncols (fst r) x = snd r.
Proof.
  intros Wf E. unfold solve_gf2_system in E.
  assert (I := eliminate_reduced arow_bit arow_xor arow_dflt (fun r => length (fst r) = ncols)
    (fun a b Ha Hb => eq_trans (xor_bits_length _ _ (eq_trans Ha (eq_sym Hb))) Ha)
    (fun a b c Ha Hb => xor_bits_nth _ _ c (eq_trans Ha (eq_sym Hb))) rows ncols (proj1 (forall_nth _ rows arow_dflt) Wf)).
  set (st := eliminate arow_bit arow_xor arow_dflt rows ncols) in *.
  destruct (existsb (fun r => snd r && forallb negb (fst r)) (mat st)) eqn:Ex; [discriminate|]. injection E as <-.
  split; [rewrite map_length; apply I|].
  set (x := map _ (pivot st)).
  assert (X : forall j, nth j x false = match nth j (pivot st) None with Some i => snd (nth i (mat st) arow_dflt) | None => false end).
  { intros j. unfold x. exact (map_nth _ _ None j). }
  assert (Z : rows_zero arow_dflt (fun r => xorb (dot ncols (fst r) x) (snd r)) rows).
  { apply (r_ev _ _ _ _ _ _ _ _ I).
    - intros a b Ha Hb. cbn [arow_xor fst snd]. rewrite dot_xor by assumption.
      destruct (dot ncols (fst a) x), (dot ncols (fst b) x), (snd a), (snd b); reflexivity.
    - intros i Hi. rewrite (r_len _ _ _ _ _ _ _ _ I) in Hi. destruct (Nat.lt_ge_cases i (rank st)) as [Hr|Hr].
      + destruct (r_row _ _ _ _ _ _ _ _ I i Hr) as [col Ec]. unfold dot.
        pose proof (pivot_sum arow_bit arow_xor arow_dflt _ rows ncols st (fun j => nth j x false) i col I Hi Ec) as PS.
        unfold arow_bit in PS. rewrite PS. rewrite X, Ec. rewrite psum_zeros; [destruct (snd _); reflexivity|].
        intros j Hj. rewrite X. destruct (nth j (pivot st) None); [reflexivity|apply andb_false_r].
      + assert (Zr : forall j, j < ncols -> nth j (fst (nth i (mat st) arow_dflt)) false = false).
        { intros j Hj. apply (r_rest _ _ _ _ _ _ _ _ I i j); [lia|exact Hj]. }
        unfold dot. rewrite psum_zeros by (intros j Hj; rewrite Zr by exact Hj; reflexivity).
        destruct (snd (nth i (mat st) arow_dflt)) eqn:Es; [exfalso|reflexivity].
        assert (In (nth i (mat st) arow_dflt) (mat st)) by (apply nth_In; rewrite (r_len _ _ _ _ _ _ _ _ I); exact Hi).
        apply Bool.not_true_iff_false in Ex. apply Ex. apply existsb_exists. exists (nth i (mat st) arow_dflt). split; [assumption|].
        rewrite Es. cbn [andb]. apply forallb_forall. intros b Hb. apply (In_nth _ _ false) in Hb as (j & Hj & <-).
        rewrite Zr; [reflexivity|]. rewrite <- (r_wf _ _ _ _ _ _ _ _ I i); [exact Hj|rewrite (r_len _ _ _ _ _ _ _ _ I); exact Hi]. }
  apply (proj2 (forall_nth _ rows arow_dflt)). intros k Hk. apply xorb_eq. exact (Z k Hk).
Qed.
Lemma solve_none rows ncols : (forall r, In r rows -> length (fst r) = ncols) -> solve_gf2_system rows ncols = None ->
  forall x, exists r, In r rows /\ dot ncols (fst r) x <> snd r.
Proof.
  intros Wf E x. unfold solve_gf2_system in E.
  assert (I := eliminate_reduced arow_bit arow_xor arow_dflt (fun r => length (fst r) = ncols)
    (fun a b Ha Hb => eq_trans (xor_bits_length _ _ (eq_trans Ha (eq_sym Hb))) Ha)
    (fun a b c Ha Hb => xor_bits_nth _ _ c (eq_trans Ha (eq_sym Hb))) rows ncols (proj1 (forall_nth _ rows arow_dflt) Wf)).
  set (st := eliminate arow_bit arow_xor arow_dflt rows ncols) in *.
  destruct (existsb (fun r => snd r && forallb negb (fst r)) (mat st)) eqn:Ex; [|discriminate].
  apply existsb_exists in Ex as (b & Hb & Eb). apply andb_prop in Eb as [Es Ez].
  destruct (existsb (fun r => negb (Bool.eqb (dot ncols (fst r) x) (snd r))) rows) eqn:Er.
  { apply existsb_exists in Er as (r & Hr & Er). exists r. split; [exact Hr|]. intros Eq. rewrite Eq, eqb_reflx in Er. discriminate. }
  exfalso.
  assert (Z : rows_zero arow_dflt (fun r => xorb (dot ncols (fst r) x) (snd r)) rows).
  { intros k Hk. assert (Hi : In (nth k rows arow_dflt) rows) by (apply nth_In; exact Hk).
    destruct (xorb (dot ncols (fst (nth k rows arow_dflt)) x) (snd (nth k rows arow_dflt))) eqn:Ek; [|exact Ek].
    apply Bool.not_true_iff_false in Er. exfalso. apply Er. apply existsb_exists. exists (nth k rows arow_dflt). split; [exact Hi|].
    destruct (dot ncols _ x), (snd (nth k rows arow_dflt)); try discriminate; reflexivity. }
  apply (r_ev _ _ _ _ _ _ _ _ I) in Z.
  2:{ intros a c Ha Hc. cbn [arow_xor fst snd]. rewrite dot_xor by assumption.
      destruct (dot ncols (fst a) x), (dot ncols (fst c) x), (snd a), (snd c); reflexivity. }
  apply (In_nth _ _ arow_dflt) in Hb as (k & Hk & Ek). specialize (Z k Hk). rewrite Ek, Es in Z.
  unfold dot in Z. rewrite psum_zeros in Z; [discriminate|]. intros j _.
  rewrite forallb_forall in Ez. destruct (nth_in_or_default j (fst b) false) as [Hin|Hd]; [|rewrite Hd; reflexivity].
  apply Ez in Hin. destruct (nth j (fst b) false); [discriminate|reflexivity].
Qed.

(* kernels *)
Definition free_cols (p : list (option nat)) (n : nat) : list nat :=
  List.filter (fun c => match nth c p None with None => true | Some _ => false end) (seq 0 n).
Lemma lsum_filter (f : nat -> bool) h n :
  parity n (fun j => if f j then h j else false) = fold_right xorb false (map h (List.filter f (seq 0 n))).
Proof.
  assert (AP : forall l l', fold_right xorb false (map h (l ++ l')) = xorb (fold_right xorb false (map h l)) (fold_right xorb false (map h l'))).
  { induction l as [|a l IH]; intros l'; cbn [app map fold_right]; [destruct (fold_right _ _ _); reflexivity|]. rewrite IH, xorb_assoc. reflexivity. }
  induction n as [|n IH]; [reflexivity|]. rewrite seq_S, filter_app, AP. cbn [sum]. rewrite IH. f_equal.
  cbn [List.filter Nat.add]. destruct (f n); cbn [map fold_right]; [rewrite xorb_false_r|]; reflexivity.
Qed.

Lemma kernel_spec rows ncols : (forall r, In r rows -> length r = ncols) ->
  let basis := gf2_kernel_basis rows ncols in
  (forall v, In v basis -> length v = ncols /\ forall r, In r rows -> dot ncols r v = false)
  /\ (forall x, (forall r, In r rows -> dot ncols r x = false) ->
        exists picks, incl picks basis /\ forall j, j < ncols -> nth j x false = fold_right xorb false (map (fun p => nth j p false) picks))
  /\ (forall t, t < length basis -> exists f, f < ncols /\ forall u, u < length basis -> nth f (nth u basis []) false = (u =? t))
  /\ ncols <= length basis + length rows.
Proof.
  intros Wf basis.
  assert (I := eliminate_reduced row_bit xor_bits [] (fun r => length r = ncols)
    (fun a b Ha Hb => eq_trans (xor_bits_length _ _ (eq_trans Ha (eq_sym Hb))) Ha)
    (fun a b c Ha Hb => xor_bits_nth _ _ c (eq_trans Ha (eq_sym Hb))) rows ncols (proj1 (forall_nth _ rows []) Wf)).
  unfold gf2_kernel_basis in basis. set (st := eliminate row_bit xor_bits [] rows ncols) in *.
  fold (free_cols (pivot st) ncols) in basis.
  set (vec := fun free => map (fun '(c, p) => match p with Some i => row_bit (nth i (mat st) []) free | None => c =? free end)
                (combine (seq 0 ncols) (pivot st))) in *.
  assert (LV : forall f, length (vec f) = ncols) by (intros f; unfold vec; rewrite map_length, combine_length, seq_length, (r_piv _ _ _ _ _ _ _ _ I); lia).
  assert (NV : forall f j, j < ncols -> nth j (vec f) false = match nth j (pivot st) None with Some i => nth f (nth i (mat st) []) false | None => j =? f end).
  { intros f j Hj. unfold vec.
    set (g := fun '(c, p) => match p with Some i => row_bit (nth i (mat st) []) f | None => c =? f end) in *.
    rewrite nth_indep with (d' := g (0, @None nat)) by (rewrite map_length, combine_length, seq_length, (r_piv _ _ _ _ _ _ _ _ I); lia).
    rewrite (map_nth g). rewrite combine_nth by (rewrite seq_length, (r_piv _ _ _ _ _ _ _ _ I); reflexivity). rewrite seq_nth by exact Hj. reflexivity. }
  assert (FR : forall f, In f (free_cols (pivot st) ncols) <-> f < ncols /\ nth f (pivot st) None = None).
  { intros f. unfold free_cols. rewrite filter_In, in_seq. destruct (nth f (pivot st) None); split; intros [A B]; try discriminate; split; auto; lia. }
  assert (KR : forall x, (forall r, In r rows -> dot ncols r x = false) <-> forall k, k < length rows -> dot ncols (nth k (mat st) []) x = false).
  { intros x. rewrite (forall_nth _ rows []). pose proof (r_ev _ _ _ _ _ _ _ _ I (fun r => dot ncols r x)) as Ev.
    unfold rows_zero in Ev. rewrite (r_len _ _ _ _ _ _ _ _ I) in Ev. apply Ev. intros a b Ha Hb. apply dot_xor; assumption. }
  assert (ZR : forall k x, rank st <= k < length rows -> dot ncols (nth k (mat st) []) x = false).
  { intros k x Hk. unfold dot. apply psum_zeros. intros j Hj. rewrite (r_rest _ _ _ _ _ _ _ _ I k j Hk Hj : nth j (nth k (mat st) []) false = false). reflexivity. }
  split; [|split; [|split]].
  - intros v Hv. apply in_map_iff in Hv as (f & <- & Hf). apply FR in Hf as [Hf Nf]. split; [apply LV|].
    apply KR. intros k Hk. destruct (Nat.lt_ge_cases k (rank st)) as [Hr|Hr]; [|apply ZR; lia].
    destruct (r_row _ _ _ _ _ _ _ _ I k Hr) as [col Ec]. assert (Hcol : col < ncols) by (apply (r_col _ _ _ _ _ _ _ _ I) in Ec; lia).
    unfold dot. pose proof (pivot_sum row_bit xor_bits [] _ rows ncols st (fun j => nth j (vec f) false) k col I Hk Ec) as PS.
    unfold row_bit in PS. rewrite PS. rewrite NV, Ec by exact Hcol.
    rewrite (psum_single _ f); [rewrite Nf, NV, Nf, Nat.eqb_refl by exact Hf; destruct (nth f _ false); reflexivity|exact Hf|].
    intros j Hj N. destruct (nth j (pivot st) None) eqn:Ej; [reflexivity|]. rewrite NV, Ej by exact Hj.
    rewrite (proj2 (Nat.eqb_neq j f)) by congruence. apply andb_false_r.
  - intros x Hx. rewrite KR in Hx.
    exists (map vec (List.filter (fun f => nth f x false) (free_cols (pivot st) ncols))). split.
    { intros v Hv. apply in_map_iff in Hv as (f & <- & Hf). apply filter_In in Hf as [Hf _]. apply in_map. exact Hf. }
    assert (FF : List.filter (fun f => nth f x false) (free_cols (pivot st) ncols)
      = List.filter (fun f => match nth f (pivot st) None with None => nth f x false | Some _ => false end) (seq 0 ncols)).
    { unfold free_cols. generalize (seq 0 ncols) as l. induction l as [|a l IH]; [reflexivity|]. cbn [List.filter].
      destruct (nth a (pivot st) None); [exact IH|]. cbn [List.filter]. rewrite IH. reflexivity. }
    rewrite FF. intros j Hj. rewrite map_map. rewrite <- (lsum_filter _ (fun f => nth j (vec f) false)).
    destruct (nth j (pivot st) None) as [k|] eqn:Ej.
    + destruct (r_col _ _ _ _ _ _ _ _ I j k Ej) as (_ & Hk & _). pose proof (r_rank _ _ _ _ _ _ _ _ I).
      specialize (Hx k ltac:(lia)). unfold dot in Hx.
      pose proof (pivot_sum row_bit xor_bits [] _ rows ncols st (fun j => nth j x false) k j I ltac:(lia) Ej) as PS.
      unfold row_bit in PS. rewrite PS in Hx. apply xorb_eq in Hx. rewrite Hx. apply psum_ext. intros i Hi.
      rewrite NV, Ej by exact Hj. destruct (nth i (pivot st) None); [reflexivity|].
      destruct (nth i (nth k (mat st) []) false), (nth i x false); reflexivity.
    + rewrite (psum_single _ j); [rewrite Ej, NV, Ej, Nat.eqb_refl by exact Hj; destruct (nth j x false); reflexivity|exact Hj|].
      intros i Hi N. rewrite NV, Ej by exact Hj. rewrite (proj2 (Nat.eqb_neq j i)) by congruence.
      destruct (nth i (pivot st) None); [reflexivity|]. destruct (nth i x false); reflexivity.
  - intros t Ht. unfold basis in Ht. rewrite map_length in Ht.
    assert (NB : forall u, u < length (free_cols (pivot st) ncols) -> nth u basis [] = vec (nth u (free_cols (pivot st) ncols) 0)).
    { intros u Hu. unfold basis. rewrite nth_indep with (d' := vec 0) by (rewrite map_length; exact Hu). apply (map_nth vec). }
    set (fs := free_cols (pivot st) ncols) in *.
    pose proof (proj1 (FR _) (nth_In fs 0 Ht)) as [Hf Nf]. exists (nth t fs 0). split; [exact Hf|].
    intros u Hu. unfold basis in Hu. rewrite map_length in Hu. rewrite NB by exact Hu. rewrite NV, Nf by exact Hf.
    destruct (Nat.eqb_spec u t) as [->|N]; [apply Nat.eqb_refl|]. apply Nat.eqb_neq. intros E. apply N.
    assert (ND : NoDup fs) by (apply NoDup_filter, seq_NoDup). symmetry. apply (proj1 (NoDup_nth fs 0) ND); auto.
  - unfold basis. rewrite map_length.
    (* the columns with a pivot are at most as many as the rows *)
    set (pc := List.filter (fun c => match nth c (pivot st) None with None => false | Some _ => true end) (seq 0 ncols)).
    assert (Sp : length (free_cols (pivot st) ncols) + length pc = ncols).
    { unfold free_cols, pc. rewrite <- (seq_length ncols 0) at 3. generalize (seq 0 ncols) as l. induction l as [|a l IH]; [reflexivity|].
      cbn [List.filter]. destruct (nth a (pivot st) None); cbn [length]; lia. }
    assert (Lp : length pc <= length rows).
    { pose (rk := fun c => match nth c (pivot st) None with Some k => k | None => 0 end).
      rewrite <- (map_length rk pc). rewrite <- (seq_length (length rows) 0). apply NoDup_incl_length.
      - assert (ND : NoDup pc) by (apply NoDup_filter, seq_NoDup).
        assert (SM : forall a, In a pc -> exists k, nth a (pivot st) None = Some k).
        { intros a Ha. apply filter_In in Ha as [_ Ha]. destruct (nth a (pivot st) None); [eauto|discriminate]. }
        clear Sp. clearbody pc. induction ND as [|a l Ha ND IH]; cbn [map]; [constructor|]. constructor; [|apply IH; intros b Hb; apply SM; right; exact Hb].
        intros Hin. apply in_map_iff in Hin as (b & Eb & Hb). destruct (SM a (or_introl eq_refl)) as [k Ek], (SM b (or_intror Hb)) as [k' Ek'].
        unfold rk in Eb. rewrite Ek, Ek' in Eb. subst k'. apply Ha. rewrite (r_inj _ _ _ _ _ _ _ _ I a b k Ek Ek'). exact Hb.
      - intros k Hk. apply in_map_iff in Hk as (a & <- & Ha). apply filter_In in Ha as [_ Ha]. unfold rk.
        destruct (nth a (pivot st) None) as [k|] eqn:Ea; [|discriminate]. apply (r_col _ _ _ _ _ _ _ _ I) in Ea.
        pose proof (r_rank _ _ _ _ _ _ _ _ I). apply in_seq. lia. }
    lia.
Qed.
