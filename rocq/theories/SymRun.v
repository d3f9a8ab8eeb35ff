(** What the search and entry functions return. *)

From Coq Require Import ZArith List Bool Lia.
From Verif Require Import SymModel SymProofs.
Import ListNotations.
Open Scope Z_scope.

Notation G := 1%nat (only parsing).
Notation E := 2%nat (only parsing).
Notation F := 3%nat (only parsing).
Notation ROW := 10%nat (only parsing).
Notation COLS := 11%nat (only parsing).
Notation D1 := 12%nat (only parsing).
Notation D2 := 13%nat (only parsing).
Notation NN := 14%nat (only parsing).
Notation ALL := 15%nat (only parsing).
Notation AVAIL := 16%nat (only parsing).
Notation COUNT := 17%nat (only parsing).
Notation BIT := 18%nat (only parsing).
Notation COL := 19%nat (only parsing).
Notation LEVEL := 20%nat (only parsing).
Notation PREV := 21%nat (only parsing).
Notation KK := 22%nat (only parsing).
Notation SIZE := 23%nat (only parsing).
Notation CC := 24%nat (only parsing).

Ltac lk := unfold upd; cbn [Nat.eqb bind upd f_params f_body plain_func SYM_MID VALUESYM];
           first [reflexivity | assumption | eassumption].
Ltac eid := apply ev_id; lk.

Section Loops.
Variable p : program.

Lemma bit_loop_runs (ce : expr) (S : nat -> Z) (Inv : env -> Prop) (n : nat) :
  (forall r c, Inv r -> (c < n)%nat -> r BIT = Some (VInt (2 ^ Z.of_nat c)) ->
               ev p r ce (VInt (S c))) ->
  (forall r x v, Inv r -> x = BIT \/ x = AVAIL \/ x = COUNT -> Inv (upd r x v)) ->
  forall k lo x a r,
    (lo + k = n)%nat -> 0 <= x < 2 ^ Z.of_nat n ->
    (forall j, (j < lo)%nat -> tb x j = false) ->
    Inv r -> r AVAIL = Some (VInt x) -> r COUNT = Some (VInt a) ->
    exists r', st p r (bit_loop ce) (r', None) /\ Inv r' /\
               r' COUNT = Some (VInt (a + zsum (fun c => if tb x c then S c else 0) lo k)).
Proof.
  intros Hcall Hinv. induction k as [|k IH]; intros lo x a r Hlo Hx Hlow HI Hr Ha.
  - assert (x = 0) as ->.
    { apply Z.bits_inj'. intros j Hj. rewrite Z.bits_0.
      destruct (Z.lt_ge_cases j (Z.of_nat n)) as [Hlt|Hge].
      - specialize (Hlow (Z.to_nat j) ltac:(lia)). unfold tb in Hlow.
        rewrite Z2Nat.id in Hlow by lia. exact Hlow.
      - exact (small_bits _ _ Hx j Hge). }
    exists r. split; [|split; [exact HI|rewrite Ha; cbn [zsum]; f_equal; f_equal; lia]].
    apply st_while_false. eapply ev_bin; [eid|apply ev_num|reflexivity].
  - cbn [zsum]. destruct (tb x lo) eqn:Hb.
    + assert (Hbit : Z.land x (0 - x) = 2 ^ Z.of_nat lo) by (now apply low_bit_value).
      set (x' := Z.lxor x (2 ^ Z.of_nat lo)).
      assert (Hx'b : forall j, 0 <= j -> Z.testbit x' j = xorb (Z.testbit x j) (j =? Z.of_nat lo)).
      { intros j Hj. unfold x'. rewrite Z.lxor_spec. f_equal.
        rewrite Z.pow2_bits_eqb by lia. apply Z.eqb_sym. }
      assert (Hx'n : 0 <= x').
      { unfold x'. apply Z.lxor_nonneg. split; intros _; [|lia]. apply Z.pow_nonneg. lia. }
      assert (Hx'h : x' < 2 ^ Z.of_nat n).
      { destruct (Z.eq_dec x' 0) as [->|Hne]; [apply Z.pow_pos_nonneg; lia|].
        apply Z.log2_lt_pow2; [lia|].
        destruct (Z.lt_ge_cases (Z.log2 x') (Z.of_nat n)) as [?|Hge]; [assumption|].
        exfalso. pose proof (Z.bit_log2 x' ltac:(lia)) as B.
        rewrite Hx'b in B by lia. rewrite (small_bits _ _ Hx) in B by lia.
        destruct (Z.eqb_spec (Z.log2 x') (Z.of_nat lo)); [lia|discriminate]. }
      set (r1 := upd r BIT (VInt (2 ^ Z.of_nat lo))).
      set (r2 := upd r1 AVAIL (VInt x')).
      set (r3 := upd r2 COUNT (VInt (a + S lo))).
      destruct (IH (Datatypes.S lo) x' (a + S lo) r3) as (r' & Hst & HI' & Hc').
      * lia.
      * lia.
      * intros j Hj. unfold tb. rewrite Hx'b by lia.
        destruct (Z.eqb_spec (Z.of_nat j) (Z.of_nat lo)) as [Heq|Hne].
        -- assert (j = lo) as -> by lia. unfold tb in Hb. now rewrite Hb.
        -- specialize (Hlow j ltac:(lia)). unfold tb in Hlow. now rewrite Hlow.
      * unfold r3, r2, r1. apply Hinv; [|tauto]. apply Hinv; [|tauto]. apply Hinv; tauto.
      * unfold r3, r2. lk.
      * unfold r3. lk.
      * exists r'. split; [|split; [exact HI'|]].
        -- apply (st_while_true p r _ _ r3); [| |exact Hst].
           ++ eapply ev_bin; [eid|apply ev_num|]. cbn [binop].
              destruct (Z.eqb_spec x 0) as [->|]; [|reflexivity].
              unfold tb in Hb. rewrite Z.bits_0 in Hb. discriminate.
           ++ apply (ex_cons p r _ _ r1).
              { apply st_let. eapply ev_bin; [eid| |].
                - eapply ev_bin; [apply ev_num|eid|reflexivity].
                - cbn [binop]. now rewrite Hbit. }
              apply (ex_cons p r1 _ _ r2).
              { apply st_set. eapply ev_bin; [unfold r1; eid|unfold r1; eid|reflexivity]. }
              apply (ex_cons p r2 _ _ r3); [|apply ex_nil].
              apply st_set. apply (ev_bin _ _ _ _ _ (VInt a) (VInt (S lo))); [unfold r2, r1; eid| |reflexivity].
              apply Hcall; [|lia|unfold r2, r1; lk].
              unfold r2, r1. apply Hinv; [|tauto]. apply Hinv; tauto.
        -- rewrite Hc'. f_equal. f_equal. rewrite <- Z.add_assoc. f_equal. f_equal.
           apply zsum_ext. intros c Hc. unfold tb. rewrite Hx'b by lia.
           destruct (Z.eqb_spec (Z.of_nat c) (Z.of_nat lo)); [lia|].
           now rewrite xorb_false_r.
    + destruct (IH (Datatypes.S lo) x a r) as (r' & Hst & HI' & Hc'); try assumption; [lia| |].
      { intros j Hj. destruct (Nat.eq_dec j lo) as [->|]; [exact Hb|]. apply Hlow. lia. }
      exists r'. split; [exact Hst|]. split; [exact HI'|]. exact Hc'.
Qed.

Lemma range_loop_runs (s : stmt) (lim : expr) (S : nat -> Z) (Inv : env -> Prop) (n m : nat) :
  (forall r, Inv r -> ev p r lim (VInt (Z.of_nat m))) ->
  (forall r c a, Inv r -> (c < m)%nat -> r BIT = Some (VInt (2 ^ Z.of_nat c)) ->
       r COL = Some (VInt (Z.of_nat c)) -> r COUNT = Some (VInt a) ->
       exists r', st p r s (r', None) /\ Inv r' /\ r' COL = Some (VInt (Z.of_nat c)) /\
                  r' COUNT = Some (VInt (a + S c))) ->
  (forall r x v, Inv r -> x = BIT \/ x = COL -> Inv (upd r x v)) ->
  forall k lo a r,
    (lo + k = m)%nat ->
    Inv r -> r COL = Some (VInt (Z.of_nat lo)) -> r COUNT = Some (VInt a) ->
    exists r', st p r (SWhile (EBin Lt (EId COL) lim) (range_body s)) (r', None) /\ Inv r' /\
               r' COUNT = Some (VInt (a + zsum S lo k)).
Proof.
  intros Hlim Hs Hinv. induction k as [|k IH]; intros lo a r Hlo HI Hr Ha.
  - exists r. split; [|split; [exact HI|rewrite Ha; cbn [zsum]; f_equal; f_equal; lia]].
    apply st_while_false. eapply ev_bin; [eid|now apply Hlim|]. cbn [binop].
    destruct (Z.ltb_spec (Z.of_nat lo) (Z.of_nat m)); [lia|reflexivity].
  - set (r1 := upd r BIT (VInt (2 ^ Z.of_nat lo))).
    destruct (Hs r1 lo a) as (r2 & Hst2 & HI2 & Hcol2 & Hc2).
    + unfold r1. apply Hinv; tauto.
    + lia.
    + unfold r1. lk.
    + unfold r1. lk.
    + unfold r1. lk.
    + set (r3 := upd r2 COL (VInt (Z.of_nat lo + 1))).
      destruct (IH (Datatypes.S lo) (a + S lo) r3) as (r' & Hst & HI' & Hc').
      * lia.
      * unfold r3. apply Hinv; tauto.
      * unfold r3, upd. cbn [Nat.eqb]. f_equal. f_equal. lia.
      * unfold r3. lk.
      * exists r'. split; [|split; [exact HI'|]].
        -- apply (st_while_true p r _ _ r3); [| |exact Hst].
           ++ eapply ev_bin; [eid|now apply Hlim|]. cbn [binop].
              destruct (Z.ltb_spec (Z.of_nat lo) (Z.of_nat m)); [reflexivity|lia].
           ++ apply (ex_cons p r _ _ r1).
              { apply st_let. eapply ev_bin; [apply ev_num|eid|]. cbn [binop].
                destruct (Z.ltb_spec (Z.of_nat lo) 0); [lia|]. now rewrite shl_one. }
              apply (ex_cons p r1 _ _ r2); [exact Hst2|].
              apply (ex_cons p r2 _ _ r3); [|apply ex_nil].
              apply st_set. eapply ev_bin; [eid|apply ev_num|reflexivity].
        -- rewrite Hc'. f_equal. f_equal. cbn [zsum]. lia.
Qed.

(** *** The searches *)

Definition here (n row : nat) (cols d1 d2 : Z) (r : env) : Prop :=
  r ROW = Some (VInt (Z.of_nat row)) /\ r COLS = Some (VInt cols) /\
  r D1 = Some (VInt d1) /\ r D2 = Some (VInt d2) /\ r NN = Some (VInt (Z.of_nat n)).

Lemma here_upd n row cols d1 d2 r x v :
  here n row cols d1 d2 r -> (14 < x)%nat -> here n row cols d1 d2 (upd r x v).
Proof.
  intros (? & ? & ? & ? & ?) Hx. unfold here, upd.
  repeat match goal with |- context [Nat.eqb ?a x] =>
    rewrite (proj2 (Nat.eqb_neq a x)) by lia end.
  tauto.
Qed.

Definition searching (n : nat) : Prop :=
  forall row cols d1 d2, (row <= n)%nat ->
    cl p G [VInt (Z.of_nat row); VInt cols; VInt d1; VInt d2; VInt (Z.of_nat n)]
      (VInt (count n (n - row) cols d1 d2)).

Lemma next_call_runs n row cols d1 d2 r c :
  here n row cols d1 d2 r -> r BIT = Some (VInt (2 ^ Z.of_nat c)) ->
  cl p G [VInt (Z.of_nat (S row)); VInt (Z.lor cols (2 ^ Z.of_nat c));
          VInt (Z.shiftl (Z.lor d1 (2 ^ Z.of_nat c)) 1);
          VInt (Z.shiftr (Z.lor d2 (2 ^ Z.of_nat c)) 1); VInt (Z.of_nat n)]
    (VInt (count n (n - S row) (Z.lor cols (2 ^ Z.of_nat c))
       (Z.shiftl (Z.lor d1 (2 ^ Z.of_nat c)) 1) (Z.shiftr (Z.lor d2 (2 ^ Z.of_nat c)) 1))) ->
  ev p r next_call
    (VInt (count n (n - S row) (Z.lor cols (2 ^ Z.of_nat c))
       (Z.shiftl (Z.lor d1 (2 ^ Z.of_nat c)) 1) (Z.shiftr (Z.lor d2 (2 ^ Z.of_nat c)) 1))).
Proof.
  intros (Hr & Hc & H1 & H2 & Hn) Hb Hcl.
  eapply ev_call; [|exact Hcl].
  apply evs_cons.
  { eapply ev_bin; [eid|apply ev_num|]. cbn [binop]. f_equal. f_equal. lia. }
  apply evs_cons. { eapply ev_bin; [eid|eid|reflexivity]. }
  apply evs_cons.
  { eapply ev_bin; [eapply ev_bin; [eid|eid|reflexivity]|apply ev_num|reflexivity]. }
  apply evs_cons.
  { eapply ev_bin; [eapply ev_bin; [eid|eid|reflexivity]|apply ev_num|reflexivity]. }
  apply evs_cons; [eid|apply evs_nil].
Qed.

Lemma eq_false_runs r row n :
  r ROW = Some (VInt (Z.of_nat row)) -> r NN = Some (VInt (Z.of_nat n)) -> (row < n)%nat ->
  ev p r (EBin Eq (EId ROW) (EId NN)) (VBool false).
Proof.
  intros. eapply ev_bin; [eid|eid|]. cbn [binop].
  destruct (Z.eqb_spec (Z.of_nat row) (Z.of_nat n)); [lia|reflexivity].
Qed.

Lemma search_bits_runs n :
  find (fun fn => Nat.eqb (f_name fn) G) p = Some (search_bits queens_avail) ->
  searching n.
Proof.
  intros Hfind row cols d1 d2 Hrow. remember (n - row)%nat as k eqn:Ek.
  revert row cols d1 d2 Hrow Ek. induction k as [|k IH]; intros row cols d1 d2 Hrow Ek.
  - assert (row = n) as -> by lia.
    eapply cl_intro; [exact Hfind|reflexivity|].
    apply ex_stop. eapply st_if_true.
    + eapply ev_bin; [eid|eid|]. cbn [binop]. now rewrite Z.eqb_refl.
    + apply ex_stop. apply st_return. apply ev_num.
  - set (r0 := bind [ROW; COLS; D1; D2; NN]
                 [VInt (Z.of_nat row); VInt cols; VInt d1; VInt d2; VInt (Z.of_nat n)]).
    assert (H0 : here n row cols d1 d2 r0) by (repeat split).
    set (x := Z.land (2 ^ Z.of_nat n - 1) (Z.lnot (Z.lor (Z.lor cols d1) d2))).
    set (r1 := upd r0 ALL (VInt (2 ^ Z.of_nat n - 1))).
    set (r2 := upd r1 AVAIL (VInt x)).
    set (r3 := upd r2 COUNT (VInt 0)).
    assert (H3 : here n row cols d1 d2 r3).
    { unfold r3, r2, r1. do 3 (apply here_upd; [|lia]). exact H0. }
    assert (Hxb : forall j, 0 <= j -> Z.testbit x j
                = (j <? Z.of_nat n) && negb (Z.testbit (Z.lor (Z.lor cols d1) d2) j)).
    { intros j Hj. unfold x. rewrite Z.land_spec, Z.lnot_spec, full_bits by lia. reflexivity. }
    assert (Hx : 0 <= x < 2 ^ Z.of_nat n).
    { assert (0 <= x).
      { unfold x. apply Z.land_nonneg. left.
        assert (0 < 2 ^ Z.of_nat n) by (apply Z.pow_pos_nonneg; lia). lia. }
      split; [assumption|].
      destruct (Z.eq_dec x 0) as [->|Hne]; [apply Z.pow_pos_nonneg; lia|].
      apply Z.log2_lt_pow2; [lia|].
      destruct (Z.lt_ge_cases (Z.log2 x) (Z.of_nat n)) as [?|Hge]; [assumption|].
      exfalso. pose proof (Z.bit_log2 x ltac:(lia)) as B. rewrite Hxb in B by lia.
      destruct (Z.ltb_spec (Z.log2 x) (Z.of_nat n)); [lia|discriminate]. }
    destruct (bit_loop_runs next_call
                (fun c => count n k (Z.lor cols (2 ^ Z.of_nat c))
                            (Z.shiftl (Z.lor d1 (2 ^ Z.of_nat c)) 1)
                            (Z.shiftr (Z.lor d2 (2 ^ Z.of_nat c)) 1))
                (here n row cols d1 d2) n) with (k := n) (lo := 0%nat) (x := x) (a := 0) (r := r3)
      as (r' & Hst & HI & Hc).
    + intros r c Hh Hlt Hb. replace k with (n - S row)%nat by lia.
      apply next_call_runs; [exact Hh|exact Hb|].
      replace (n - S row)%nat with k by lia. apply IH; lia.
    + intros r y v Hh Hy. apply here_upd; [exact Hh|lia].
    + reflexivity.
    + exact Hx.
    + intros j Hj. lia.
    + exact H3.
    + unfold r3, r2. lk.
    + unfold r3. lk.
    + eapply cl_intro with (r' := r'); [exact Hfind|reflexivity|].
      cbn [f_params search_bits plain_func f_body]. fold r0.
      eapply ex_cons.
      { apply st_if_false. eapply eq_false_runs with (row := row) (n := n); [apply H0|apply H0|lia]. }
      apply (ex_cons p r0 _ _ r1).
      { apply st_let. eapply ev_bin.
        - eapply ev_bin; [apply ev_num|eid|]. cbn [binop].
          destruct (Z.ltb_spec (Z.of_nat n) 0); [lia|]. reflexivity.
        - apply ev_num.
        - cbn [binop]. now rewrite shl_one. }
      apply (ex_cons p r1 _ _ r2).
      { apply st_let. eapply ev_bin.
        - unfold r1. eid.
        - apply ev_not. eapply ev_bin; [eapply ev_bin; [unfold r1; eid|unfold r1; eid|reflexivity]
                                       |unfold r1; eid|reflexivity].
        - reflexivity. }
      apply (ex_cons p r2 _ _ r3); [apply st_let; apply ev_num|].
      apply (ex_cons p r3 _ _ r'); [exact Hst|].
      apply ex_stop. apply st_return. apply ev_id. rewrite Hc. f_equal. f_equal.
      cbn [Z.add]. cbn [count]. apply zsum_ext. intros c [_ Hc'].
      unfold tb. rewrite Hxb by lia. rewrite !Z.lor_spec. unfold occ.
      destruct (Z.ltb_spec (Z.of_nat c) (Z.of_nat n)); [|lia]. cbn [andb].
      destruct (Z.testbit cols (Z.of_nat c) || Z.testbit d1 (Z.of_nat c)
                || Z.testbit d2 (Z.of_nat c)); reflexivity.
Qed.

Lemma search_range_runs n :
  find (fun fn => Nat.eqb (f_name fn) G) p = Some search_range ->
  searching n.
Proof.
  intros Hfind row cols d1 d2 Hrow. remember (n - row)%nat as k eqn:Ek.
  revert row cols d1 d2 Hrow Ek. induction k as [|k IH]; intros row cols d1 d2 Hrow Ek.
  - assert (row = n) as -> by lia.
    eapply cl_intro; [exact Hfind|reflexivity|].
    apply ex_stop. eapply st_if_true.
    + eapply ev_bin; [eid|eid|]. cbn [binop]. now rewrite Z.eqb_refl.
    + apply ex_stop. apply st_return. apply ev_num.
  - set (r0 := bind [ROW; COLS; D1; D2; NN]
                 [VInt (Z.of_nat row); VInt cols; VInt d1; VInt d2; VInt (Z.of_nat n)]).
    assert (H0 : here n row cols d1 d2 r0) by (repeat split).
    set (r1 := upd r0 COUNT (VInt 0)).
    set (r2 := upd r1 COL (VInt 0)).
    assert (H2 : here n row cols d1 d2 r2).
    { unfold r2, r1. do 2 (apply here_upd; [|lia]). exact H0. }
    destruct (range_loop_runs
                (SIf (EBin Eq (EBin BitAnd occupied (EId BIT)) (ENum 0)) [add_call next_call] None)
                (EId NN)
                (fun c => if occ cols d1 d2 c then 0
                          else count n k (Z.lor cols (2 ^ Z.of_nat c))
                            (Z.shiftl (Z.lor d1 (2 ^ Z.of_nat c)) 1)
                            (Z.shiftr (Z.lor d2 (2 ^ Z.of_nat c)) 1))
                (here n row cols d1 d2) n n) with (k := n) (lo := 0%nat) (a := 0) (r := r2)
      as (r' & Hst & HI & Hc).
    + intros r Hh. apply ev_id. apply Hh.
    + intros r c a Hh Hlt Hb Hcol Ha.
      assert (Hg : ev p r (EBin Eq (EBin BitAnd occupied (EId BIT)) (ENum 0))
                     (VBool (negb (occ cols d1 d2 c)))).
      { destruct Hh as (_ & Hcs & Hd1 & Hd2 & _).
        eapply ev_bin; [|apply ev_num|].
        - eapply ev_bin;
            [eapply ev_bin; [eapply ev_bin; [eid|eid|reflexivity]|eid|reflexivity]|eid|reflexivity].
        - cbn [binop]. f_equal. f_equal.
          assert (Hl : Z.land (Z.lor (Z.lor cols d1) d2) (2 ^ Z.of_nat c)
                       = if occ cols d1 d2 c then 2 ^ Z.of_nat c else 0).
          { apply Z.bits_inj'. intros j Hj. rewrite Z.land_spec, Z.pow2_bits_eqb by lia.
            destruct (Z.eqb_spec (Z.of_nat c) j) as [<-|Hne].
            - rewrite andb_true_r, !Z.lor_spec. unfold occ.
              destruct (Z.testbit cols _ || Z.testbit d1 _ || Z.testbit d2 _).
              + now rewrite Z.pow2_bits_true by lia.
              + now rewrite Z.bits_0.
            - rewrite andb_false_r. destruct (occ cols d1 d2 c); [|now rewrite Z.bits_0].
              rewrite Z.pow2_bits_false by lia. reflexivity. }
          rewrite Hl. destruct (occ cols d1 d2 c); [|reflexivity].
          apply Z.eqb_neq. assert (0 < 2 ^ Z.of_nat c) by (apply Z.pow_pos_nonneg; lia). lia. }
      destruct (occ cols d1 d2 c).
      * exists r. split; [apply st_if_false; exact Hg|]. split; [exact Hh|]. split; [exact Hcol|].
        rewrite Ha. f_equal. f_equal. lia.
      * eexists. split; [|split; [|split]].
        -- eapply st_if_true; [exact Hg|].
           eapply ex_cons; [|apply ex_nil].
           apply st_set. eapply ev_bin; [eid| |].
           { apply next_call_runs with (row := row) (n := n) (c := c); [exact Hh|exact Hb|].
             replace (n - S row)%nat with k by lia. apply IH; lia. }
           reflexivity.
        -- apply here_upd; [exact Hh|lia].
        -- lk.
        -- unfold upd. cbn [Nat.eqb]. f_equal. f_equal. f_equal.
           replace (n - S row)%nat with k by lia. reflexivity.
    + intros r y v Hh Hy. apply here_upd; [exact Hh|lia].
    + reflexivity.
    + exact H2.
    + unfold r2. lk.
    + unfold r2, r1. lk.
    + eapply cl_intro with (r' := r'); [exact Hfind|reflexivity|].
      cbn [f_params search_range plain_func f_body]. fold r0.
      eapply ex_cons.
      { apply st_if_false. eapply eq_false_runs with (row := row) (n := n); [apply H0|apply H0|lia]. }
      apply (ex_cons p r0 _ _ r1); [apply st_let; apply ev_num|].
      apply (ex_cons p r1 _ _ r2); [apply st_let; apply ev_num|].
      apply (ex_cons p r2 _ _ r'); [exact Hst|].
      apply ex_stop. apply st_return. apply ev_id. rewrite Hc. reflexivity.
Qed.

(** *** The entries *)

Definition at_entry (n : nat) (r : env) : Prop := r NN = Some (VInt (Z.of_nat n)).

Lemma at_entry_upd n r x v : at_entry n r -> (14 < x)%nat -> at_entry n (upd r x v).
Proof.
  unfold at_entry, upd. intros H Hx. rewrite (proj2 (Nat.eqb_neq 14 x)) by lia. exact H.
Qed.

Lemma first_call_runs n r c (b : symbol) :
  searching n -> (c < n)%nat -> at_entry n r -> r b = Some (VInt (2 ^ Z.of_nat c)) ->
  ev p r (ECall G [ENum 1; EId b; EBin Shl (EId b) (ENum 1); EBin Shr (EId b) (ENum 1); EId NN])
    (VInt (sub n c)).
Proof.
  intros HS Hc Hn Hb. unfold sub.
  eapply ev_call; [|exact (HS 1%nat _ _ _ ltac:(lia))].
  apply evs_cons; [apply ev_num|].
  apply evs_cons; [now apply ev_id|].
  apply evs_cons; [eapply ev_bin; [now apply ev_id; eassumption|apply ev_num|reflexivity]|].
  apply evs_cons; [eapply ev_bin; [now apply ev_id; eassumption|apply ev_num|reflexivity]|].
  apply evs_cons; [now apply ev_id|apply evs_nil].
Qed.

Lemma shr1_runs n r : at_entry n r -> ev p r (shr1 NN) (VInt (Z.of_nat (n / 2))).
Proof.
  intros Hn. eapply ev_bin; [apply ev_id; exact Hn|apply ev_num|].
  cbn [binop]. rewrite Z.shiftr_div_pow2 by lia.
  replace (2 ^ 1) with (Z.of_nat 2) by reflexivity. rewrite <- Nat2Z.inj_div. reflexivity.
Qed.

Lemma odd_runs n r :
  at_entry n r ->
  ev p r (EBin NotEq (EBin Modulo (EId NN) (ENum 2)) (ENum 0)) (VBool (Nat.odd n)).
Proof.
  intros Hn. eapply ev_bin;
    [eapply ev_bin; [apply ev_id; exact Hn|apply ev_num|reflexivity]|apply ev_num|].
  cbn [binop]. f_equal. f_equal.
  rewrite Z.rem_mod_nonneg by lia.
  replace 2 with (Z.of_nat 2) by reflexivity. rewrite <- Nat2Z.inj_mod.
  pose proof (Nat.div2_odd n) as D.
  assert ((n mod 2 = Nat.b2n (Nat.odd n))%nat) as ->.
  { rewrite D at 1. rewrite Nat.mul_comm, Nat.add_comm, Nat.mod_add by lia.
    destruct (Nat.odd n); reflexivity. }
  destruct (Nat.odd n); reflexivity.
Qed.

(** The statements the rewrite adds after the loop. *)
Definition tail_stmts : list stmt :=
  [SSet COUNT (EBin Multiply (EId COUNT) (ENum 2));
   SIf (EBin NotEq (EBin Modulo (EId NN) (ENum 2)) (ENum 0))
     [SLet SYM_MID (EBin Shl (ENum 1) (shr1 NN));
      SSet COUNT (EBin Add (EId COUNT)
        (ECall G [ENum 1; EId SYM_MID; EBin Shl (EId SYM_MID) (ENum 1);
                  EBin Shr (EId SYM_MID) (ENum 1); EId NN]))] None;
   SReturn (Some (EId COUNT))].

Lemma tail_runs n r a :
  searching n -> at_entry n r -> r COUNT = Some (VInt a) ->
  exists r', ex p r tail_stmts
    (r', Some (VInt (a * 2 + (if Nat.odd n then sub n (n / 2) else 0)))).
Proof.
  intros HS Hn Ha.
  set (r1 := upd r COUNT (VInt (a * 2))).
  assert (H1 : at_entry n r1) by (apply at_entry_upd; [exact Hn|lia]).
  pose proof (odd_runs n r1 H1) as Ho.
  destruct (Nat.odd n) eqn:Eo.
  - set (r2 := upd r1 SYM_MID (VInt (2 ^ Z.of_nat (n / 2)))).
    assert (H2 : at_entry n r2) by (apply at_entry_upd; [exact H1|unfold SYM_MID; lia]).
    set (r3 := upd r2 COUNT (VInt (a * 2 + sub n (n / 2)))).
    exists r3.
    apply (ex_cons p r _ _ r1).
    { apply st_set. eapply ev_bin; [eid|apply ev_num|reflexivity]. }
    apply (ex_cons p r1 _ _ r3).
    { eapply st_if_true; [exact Ho|].
      apply (ex_cons p r1 _ _ r2).
      { apply st_let. eapply ev_bin; [apply ev_num|apply shr1_runs; exact H1|].
        cbn [binop]. destruct (Z.ltb_spec (Z.of_nat (n / 2)) 0); [lia|]. now rewrite shl_one. }
      apply (ex_cons p r2 _ _ r3); [|apply ex_nil].
      apply st_set. apply (ev_bin _ _ _ _ _ (VInt (a * 2)) (VInt (sub n (n / 2)))); [| |reflexivity].
      - unfold r2, r1. eid.
      - apply first_call_runs; [exact HS| |exact H2|].
        + apply Nat.div_lt; [|lia]. destruct n; [discriminate|lia].
        + unfold r2, upd. now rewrite Nat.eqb_refl. }
    apply ex_stop. apply st_return. unfold r3. eid.
  - exists r1.
    apply (ex_cons p r _ _ r1).
    { apply st_set. eapply ev_bin; [eid|apply ev_num|reflexivity]. }
    eapply ex_cons; [apply st_if_false; exact Ho|].
    apply ex_stop. apply st_return. rewrite Z.add_0_r. unfold r1. eid.
Qed.

Definition zero_check : stmt :=
  SIf (EBin Eq (ENum 0) (EId NN)) [SReturn (Some (ENum 1))] None.
Definition low_half : expr :=
  EBin BitAnd all_columns (EBin Subtract (EBin Shl (ENum 1) (shr1 NN)) (ENum 1)).

Lemma all_runs n r : at_entry n r -> ev p r all_columns (VInt (2 ^ Z.of_nat n - 1)).
Proof.
  intros Hn. eapply ev_bin; [eapply ev_bin; [apply ev_num|apply ev_id; exact Hn|]|apply ev_num|].
  - cbn [binop]. destruct (Z.ltb_spec (Z.of_nat n) 0); [lia|reflexivity].
  - cbn [binop]. now rewrite shl_one.
Qed.

Lemma low_runs n r :
  at_entry n r -> ev p r low_half (VInt (2 ^ Z.of_nat (n / 2) - 1)).
Proof.
  intros Hn. eapply ev_bin; [apply all_runs; exact Hn| |].
  - eapply ev_bin; [eapply ev_bin; [apply ev_num|apply shr1_runs; exact Hn|]|apply ev_num|].
    + cbn [binop]. destruct (Z.ltb_spec (Z.of_nat (n / 2)) 0); [lia|reflexivity].
    + cbn [binop]. reflexivity.
  - cbn [binop]. rewrite shl_one. f_equal. f_equal.
    apply Z.bits_inj'. intros j Hj. rewrite Z.land_spec, !full_bits by lia.
    assert ((n / 2 <= n)%nat) by (apply Nat.div_le_upper_bound; lia).
    destruct (Z.ltb_spec j (Z.of_nat n)), (Z.ltb_spec j (Z.of_nat (n / 2))); try reflexivity; lia.
Qed.

(** The bit-trick loop over the first [m] columns, from a fresh counter. *)
Lemma first_bits_run n m r :
  searching n -> (m <= n)%nat -> at_entry n r ->
  r AVAIL = Some (VInt (2 ^ Z.of_nat m - 1)) -> r COUNT = Some (VInt 0) ->
  exists r', st p r (bit_loop first_call) (r', None) /\ at_entry n r' /\
             r' COUNT = Some (VInt (zsum (sub n) 0 m)).
Proof.
  intros HS Hm Hn Hx Ha.
  assert (Hpow : 2 ^ Z.of_nat m <= 2 ^ Z.of_nat n) by (apply Z.pow_le_mono_r; lia).
  assert (Hpos : 0 < 2 ^ Z.of_nat m) by (apply Z.pow_pos_nonneg; lia).
  destruct (bit_loop_runs first_call (sub n) (at_entry n) n)
    with (k := n) (lo := 0%nat) (x := 2 ^ Z.of_nat m - 1) (a := 0) (r := r)
    as (r' & Hst & HI & Hc).
  - intros r1 c Hh Hlt Hb. now apply first_call_runs.
  - intros r1 y v Hh Hy. apply at_entry_upd; [exact Hh|lia].
  - reflexivity.
  - lia.
  - intros j Hj. lia.
  - exact Hn.
  - exact Hx.
  - exact Ha.
  - exists r'. split; [exact Hst|]. split; [exact HI|]. rewrite Hc. f_equal. f_equal.
    cbn [Z.add]. clear - Hm.
    assert (exists d, n = (m + d)%nat) as [d ->] by (exists (n - m)%nat; lia).
    rewrite zsum_app.
    rewrite (zsum_ext _ (sub (m + d)) 0 m).
    2:{ intros c [_ Hc']. unfold tb. rewrite full_bits by lia.
        destruct (Z.ltb_spec (Z.of_nat c) (Z.of_nat m)); [reflexivity|lia]. }
    rewrite (zsum_ext _ (fun _ => 0) (0 + m)).
    2:{ intros c [Hc' _]. unfold tb. rewrite full_bits by lia.
        destruct (Z.ltb_spec (Z.of_nat c) (Z.of_nat m)); [lia|reflexivity]. }
    assert (Hz : forall lo len, zsum (fun _ => 0) lo len = 0).
    { intros lo len. revert lo. induction len as [|len IH]; intros lo; cbn [zsum]; [reflexivity|].
      now rewrite IH. }
    rewrite Hz. lia.
Qed.

Lemma first_range_run n m r lim :
  searching n -> (m <= n)%nat -> at_entry n r ->
  (forall r, at_entry n r -> ev p r lim (VInt (Z.of_nat m))) ->
  r COL = Some (VInt 0) -> r COUNT = Some (VInt 0) ->
  exists r', st p r (SWhile (EBin Lt (EId COL) lim) (range_body (add_call first_call))) (r', None)
             /\ at_entry n r' /\ r' COUNT = Some (VInt (zsum (sub n) 0 m)).
Proof.
  intros HS Hm Hn Hlim Hx Ha.
  destruct (range_loop_runs (add_call first_call) lim (sub n) (at_entry n) n m)
    with (k := m) (lo := 0%nat) (a := 0) (r := r) as (r' & Hst & HI & Hc).
  - exact Hlim.
  - intros r1 c a Hh Hlt Hb Hcol Hcnt. eexists. split; [|split; [|split]].
    + apply st_set. eapply ev_bin; [eid| |].
      * apply first_call_runs with (n := n) (c := c); [exact HS|lia|exact Hh|exact Hb].
      * reflexivity.
    + apply at_entry_upd; [exact Hh|lia].
    + lk.
    + lk.
  - intros r1 y v Hh Hy. apply at_entry_upd; [exact Hh|lia].
  - reflexivity.
  - exact Hn.
  - exact Hx.
  - exact Ha.
  - exists r'. split; [exact Hst|]. split; [exact HI|]. exact Hc.
Qed.

Definition entry_total (n : nat) : Z := zsum (sub n) 0 n.

Lemma entry_bits_runs n :
  find (fun fn => Nat.eqb (f_name fn) E) p = Some (entry_bits all_columns) ->
  searching n ->
  cl p E [VInt (Z.of_nat n)] (VInt (if Nat.eqb n 0 then 1 else entry_total n)).
Proof.
  intros Hfind HS. destruct (Nat.eqb_spec n 0) as [->|Hne].
  - eapply cl_intro; [exact Hfind|reflexivity|]. apply ex_stop. eapply st_if_true.
    + eapply ev_bin; [apply ev_num|eid|reflexivity].
    + apply ex_stop. apply st_return. apply ev_num.
  - set (r0 := bind [NN] [VInt (Z.of_nat n)]).
    assert (H0 : at_entry n r0) by reflexivity.
    set (r1 := upd r0 AVAIL (VInt (2 ^ Z.of_nat n - 1))).
    set (r2 := upd r1 COUNT (VInt 0)).
    destruct (first_bits_run n n r2) as (r' & Hst & HI & Hc); [exact HS|lia| | | |].
    + unfold r2, r1. do 2 (apply at_entry_upd; [|lia]). exact H0.
    + unfold r2, r1. lk.
    + unfold r2. lk.
    + eapply cl_intro with (r' := r'); [exact Hfind|reflexivity|].
      cbn [f_params entry_bits plain_func f_body]. fold r0.
      eapply ex_cons.
      { apply st_if_false. eapply ev_bin; [apply ev_num|apply ev_id; exact H0|].
        cbn [binop]. f_equal. f_equal. apply Z.eqb_neq. lia. }
      apply (ex_cons p r0 _ _ r1); [apply st_let; apply all_runs; exact H0|].
      apply (ex_cons p r1 _ _ r2); [apply st_let; apply ev_num|].
      apply (ex_cons p r2 _ _ r'); [exact Hst|].
      apply ex_stop. apply st_return. apply ev_id. exact Hc.
Qed.

Lemma half_bits_runs n :
  find (fun fn => Nat.eqb (f_name fn) E) p
  = Some (plain_func E [NN] (zero_check :: SLet AVAIL low_half :: SLet COUNT (ENum 0)
                             :: bit_loop first_call :: tail_stmts)) ->
  searching n ->
  cl p E [VInt (Z.of_nat n)] (VInt (if Nat.eqb n 0 then 1 else entry_total n)).
Proof.
  intros Hfind HS. destruct (Nat.eqb_spec n 0) as [->|Hne].
  - eapply cl_intro; [exact Hfind|reflexivity|]. apply ex_stop. eapply st_if_true.
    + eapply ev_bin; [apply ev_num|eid|reflexivity].
    + apply ex_stop. apply st_return. apply ev_num.
  - set (r0 := bind [NN] [VInt (Z.of_nat n)]).
    assert (H0 : at_entry n r0) by reflexivity.
    set (r1 := upd r0 AVAIL (VInt (2 ^ Z.of_nat (n / 2) - 1))).
    set (r2 := upd r1 COUNT (VInt 0)).
    assert (Hh : (n / 2 <= n)%nat) by (apply Nat.div_le_upper_bound; lia).
    destruct (first_bits_run n (n / 2) r2) as (r' & Hst & HI & Hc); [exact HS|exact Hh| | | |].
    + unfold r2, r1. do 2 (apply at_entry_upd; [|lia]). exact H0.
    + unfold r2, r1. lk.
    + unfold r2. lk.
    + destruct (tail_runs n r' _ HS HI Hc) as [r'' Ht].
      eapply cl_intro with (r' := r''); [exact Hfind|reflexivity|].
      cbn [f_params plain_func f_body]. fold r0.
      eapply ex_cons.
      { apply st_if_false. eapply ev_bin; [apply ev_num|apply ev_id; exact H0|].
        cbn [binop]. f_equal. f_equal. apply Z.eqb_neq. lia. }
      apply (ex_cons p r0 _ _ r1); [apply st_let; apply low_runs; exact H0|].
      apply (ex_cons p r1 _ _ r2); [apply st_let; apply ev_num|].
      apply (ex_cons p r2 _ _ r'); [exact Hst|].
      unfold entry_total. rewrite half_sum, Z.mul_comm. exact Ht.
Qed.

Lemma entry_range_runs n :
  find (fun fn => Nat.eqb (f_name fn) E) p = Some entry_range ->
  searching n ->
  cl p E [VInt (Z.of_nat n)] (VInt (entry_total n)).
Proof.
  intros Hfind HS.
  set (r0 := bind [NN] [VInt (Z.of_nat n)]).
  assert (H0 : at_entry n r0) by reflexivity.
  set (r1 := upd r0 COUNT (VInt 0)).
  set (r2 := upd r1 COL (VInt 0)).
  destruct (first_range_run n n r2 (EId NN)) as (r' & Hst & HI & Hc); [exact HS|lia| | | | |].
  + unfold r2, r1. do 2 (apply at_entry_upd; [|lia]). exact H0.
  + intros r Hr. now apply ev_id.
  + unfold r2. lk.
  + unfold r2, r1. lk.
  + eapply cl_intro with (r' := r'); [exact Hfind|reflexivity|].
    cbn [f_params entry_range plain_func f_body]. fold r0.
    apply (ex_cons p r0 _ _ r1); [apply st_let; apply ev_num|].
    apply (ex_cons p r1 _ _ r2); [apply st_let; apply ev_num|].
    apply (ex_cons p r2 _ _ r'); [exact Hst|].
    apply ex_stop. apply st_return. apply ev_id. exact Hc.
Qed.

Lemma half_range_runs n :
  find (fun fn => Nat.eqb (f_name fn) E) p
  = Some (plain_func E [NN] (SLet COUNT (ENum 0) :: SLet COL (ENum 0)
            :: SWhile (EBin Lt (EId COL) (shr1 NN)) (range_body (add_call first_call))
            :: tail_stmts)) ->
  searching n ->
  cl p E [VInt (Z.of_nat n)] (VInt (entry_total n)).
Proof.
  intros Hfind HS.
  set (r0 := bind [NN] [VInt (Z.of_nat n)]).
  assert (H0 : at_entry n r0) by reflexivity.
  set (r1 := upd r0 COUNT (VInt 0)).
  set (r2 := upd r1 COL (VInt 0)).
  assert (Hh : (n / 2 <= n)%nat) by (apply Nat.div_le_upper_bound; lia).
  destruct (first_range_run n (n / 2) r2 (shr1 NN)) as (r' & Hst & HI & Hc); [exact HS|exact Hh| | | | |].
  + unfold r2, r1. do 2 (apply at_entry_upd; [|lia]). exact H0.
  + intros r Hr. now apply shr1_runs.
  + unfold r2. lk.
  + unfold r2, r1. lk.
  + destruct (tail_runs n r' _ HS HI Hc) as [r'' Ht].
    eapply cl_intro with (r' := r''); [exact Hfind|reflexivity|].
    cbn [f_params plain_func f_body]. fold r0.
    apply (ex_cons p r0 _ _ r1); [apply st_let; apply ev_num|].
    apply (ex_cons p r1 _ _ r2); [apply st_let; apply ev_num|].
    apply (ex_cons p r2 _ _ r'); [exact Hst|].
    unfold entry_total. rewrite half_sum, Z.mul_comm. exact Ht.
Qed.

(** *** Values *)

Definition at_level (lv : Z) (pv k sz : Z) (r : env) : Prop :=
  r LEVEL = Some (VInt lv) /\ r PREV = Some (VInt pv) /\ r KK = Some (VInt k) /\
  r SIZE = Some (VInt sz).

Definition val_loop (s : stmt) : stmt :=
  SWhile (EBin LtEq (EId CC) (EId KK)) [s; SSet CC (EBin Add (EId CC) (ENum 1))].

Lemma val_loop_runs (s : stmt) (k : nat) (S : nat -> Z) (Inv : env -> Prop) :
  (forall r, Inv r -> r KK = Some (VInt (Z.of_nat k))) ->
  (forall r c a, Inv r -> (1 <= c <= k)%nat ->
       r CC = Some (VInt (Z.of_nat c)) -> r COUNT = Some (VInt a) ->
       exists r', st p r s (r', None) /\ Inv r' /\ r' CC = Some (VInt (Z.of_nat c)) /\
                  r' COUNT = Some (VInt (a + S c))) ->
  (forall r v, Inv r -> Inv (upd r CC v)) ->
  forall m lo a r,
    (lo + m = k + 1)%nat -> (1 <= lo)%nat ->
    Inv r -> r CC = Some (VInt (Z.of_nat lo)) -> r COUNT = Some (VInt a) ->
    exists r', st p r (val_loop s) (r', None) /\ Inv r' /\
               r' COUNT = Some (VInt (a + zsum S lo m)).
Proof.
  intros Hlim Hs Hinv. induction m as [|m IH]; intros lo a r Hlo H1 HI Hr Ha.
  - exists r. split; [|split; [exact HI|rewrite Ha; cbn [zsum]; f_equal; f_equal; lia]].
    apply st_while_false. eapply ev_bin; [eid|apply ev_id; now apply Hlim|]. cbn [binop].
    destruct (Z.leb_spec (Z.of_nat lo) (Z.of_nat k)); [lia|reflexivity].
  - destruct (Hs r lo a HI ltac:(lia) Hr Ha) as (r2 & Hst2 & HI2 & Hcol2 & Hc2).
    set (r3 := upd r2 CC (VInt (Z.of_nat lo + 1))).
    destruct (IH (Datatypes.S lo) (a + S lo) r3) as (r' & Hst & HI' & Hc').
    + lia.
    + lia.
    + unfold r3. now apply Hinv.
    + unfold r3, upd. cbn [Nat.eqb]. f_equal. f_equal. lia.
    + unfold r3. lk.
    + exists r'. split; [|split; [exact HI'|]].
      * apply (st_while_true p r _ _ r3); [| |exact Hst].
        -- eapply ev_bin; [eid|apply ev_id; now apply Hlim|]. cbn [binop].
           destruct (Z.leb_spec (Z.of_nat lo) (Z.of_nat k)); [reflexivity|lia].
        -- apply (ex_cons p r _ _ r2); [exact Hst2|].
           apply (ex_cons p r2 _ _ r3); [|apply ex_nil].
           apply st_set. eapply ev_bin; [eid|apply ev_num|reflexivity].
      * rewrite Hc'. f_equal. f_equal. cbn [zsum]. lia.
Qed.

(** Walks of [m] further steps that never repeat a value: a sum over the [k]
    values, skipping the previous one. *)
Fixpoint walks (k m : nat) (prev : nat) : Z :=
  match m with
  | O => 1
  | S m => zsum (fun c => if Nat.eqb c prev then 0 else walks k m c) 1 k
  end.

Lemma walks_runs k sz :
  find (fun fn => Nat.eqb (f_name fn) F) p = Some (search_values differs (EId KK)) ->
  forall m lv prev, m = Z.to_nat (sz - lv) ->
    cl p F [VInt lv; VInt (Z.of_nat prev); VInt (Z.of_nat k); VInt sz] (VInt (walks k m prev)).
Proof.
  intros Hfind. induction m as [|m IH]; intros lv prev Hm.
  - eapply cl_intro; [exact Hfind|reflexivity|]. apply ex_stop. eapply st_if_true.
    + eapply ev_bin; [eid|eid|]. cbn [binop]. destruct (Z.leb_spec sz lv); [reflexivity|lia].
    + apply ex_stop. apply st_return. apply ev_num.
  - set (r0 := bind [LEVEL; PREV; KK; SIZE]
                 [VInt lv; VInt (Z.of_nat prev); VInt (Z.of_nat k); VInt sz]).
    assert (H0 : at_level lv (Z.of_nat prev) (Z.of_nat k) sz r0) by (repeat split).
    set (r1 := upd r0 COUNT (VInt 0)).
    set (r2 := upd r1 CC (VInt 1)).
    destruct (val_loop_runs
                (SIf differs [add_call (ECall F [EBin Add (EId LEVEL) (ENum 1); EId CC; EId KK; EId SIZE])] None)
                k (fun c => if Nat.eqb c prev then 0 else walks k m c)
                (at_level lv (Z.of_nat prev) (Z.of_nat k) sz))
      with (m := k) (lo := 1%nat) (a := 0) (r := r2) as (r' & Hst & HI & Hc).
    + intros r (_ & _ & H & _). exact H.
    + intros r c a (Hl & Hp & Hk & Hsz) Hc Hcc Ha.
      assert (Hg : ev p r differs (VBool (negb (Nat.eqb c prev)))).
      { eapply ev_bin; [eid|eid|]. cbn [binop]. f_equal. f_equal. f_equal.
        destruct (Nat.eqb_spec c prev), (Z.eqb_spec (Z.of_nat c) (Z.of_nat prev)); lia. }
      destruct (Nat.eqb c prev).
      * exists r. split; [apply st_if_false; exact Hg|]. split; [repeat split; assumption|].
        split; [exact Hcc|]. rewrite Ha. f_equal. f_equal. lia.
      * eexists. split; [|split; [|split]].
        -- eapply st_if_true; [exact Hg|]. eapply ex_cons; [|apply ex_nil].
           apply st_set. eapply ev_bin; [eid| |].
           ++ eapply ev_call; [|apply (IH (lv + 1) c); lia].
              apply evs_cons; [eapply ev_bin; [eid|apply ev_num|reflexivity]|].
              apply evs_cons; [eid|]. apply evs_cons; [eid|]. apply evs_cons; [eid|apply evs_nil].
           ++ reflexivity.
        -- repeat split; lk.
        -- lk.
        -- lk.
    + intros r v (? & ? & ? & ?). repeat split; lk.
    + lia.
    + lia.
    + unfold r2, r1. repeat split.
    + unfold r2. lk.
    + unfold r2, r1. lk.
    + eapply cl_intro with (r' := r'); [exact Hfind|reflexivity|].
      cbn [f_params search_values plain_func f_body]. fold r0.
      eapply ex_cons.
      { apply st_if_false. eapply ev_bin; [eid|eid|]. cbn [binop].
        destruct (Z.leb_spec sz lv); [lia|reflexivity]. }
      apply (ex_cons p r0 _ _ r1); [apply st_let; apply ev_num|].
      apply (ex_cons p r1 _ _ r2); [apply st_let; apply ev_num|].
      apply (ex_cons p r2 _ _ r'); [exact Hst|].
      apply ex_stop. apply st_return. apply ev_id. exact Hc.
Qed.

Lemma walks_value k m prev : (1 <= prev <= k)%nat -> walks k m prev = (Z.of_nat k - 1) ^ Z.of_nat m.
Proof.
  revert prev. induction m as [|m IH]; intros prev Hp; [reflexivity|].
  cbn [walks]. set (w := (Z.of_nat k - 1) ^ Z.of_nat m).
  rewrite (zsum_ext _ (fun c => if Nat.eqb c prev then 0 else w)).
  2:{ intros c Hc. destruct (Nat.eqb c prev); [reflexivity|]. apply IH. lia. }
  assert (Hs : forall len lo, zsum (fun c => if Nat.eqb c prev then 0 else w) lo len
     = if (lo <=? prev)%nat && (prev <? lo + len)%nat then (Z.of_nat len - 1) * w else Z.of_nat len * w).
  { clear. induction len as [|len IHl]; intros lo; cbn [zsum].
    - destruct (Nat.leb_spec lo prev), (Nat.ltb_spec prev (lo + 0)); cbn [andb]; try lia; reflexivity.
    - rewrite IHl. destruct (Nat.eqb_spec lo prev);
      destruct (Nat.leb_spec lo prev), (Nat.ltb_spec prev (lo + S len)),
        (Nat.leb_spec (S lo) prev), (Nat.ltb_spec prev (S lo + len)); cbn [andb]; try lia. }
  rewrite Hs. destruct (Nat.leb_spec 1 prev), (Nat.ltb_spec prev (1 + k)); try lia. cbn [andb].
  rewrite Nat2Z.inj_succ, Z.pow_succ_r by lia. reflexivity.
Qed.

Lemma entry_values_runs k sz :
  find (fun fn => Nat.eqb (f_name fn) E) p = Some entry_values ->
  find (fun fn => Nat.eqb (f_name fn) F) p = Some (search_values differs (EId KK)) ->
  cl p E [VInt (Z.of_nat k); VInt sz]
    (VInt (Z.of_nat k * walks k (Z.to_nat (sz - 1)) 1)).
Proof.
  intros Hfind HF.
  set (r0 := bind [KK; SIZE] [VInt (Z.of_nat k); VInt sz]).
  set (r1 := upd r0 COUNT (VInt 0)).
  set (r2 := upd r1 CC (VInt 1)).
  destruct (val_loop_runs (add_call (ECall F [ENum 1; EId CC; EId KK; EId SIZE]))
              k (fun c => walks k (Z.to_nat (sz - 1)) c)
              (fun r => r KK = Some (VInt (Z.of_nat k)) /\ r SIZE = Some (VInt sz)))
    with (m := k) (lo := 1%nat) (a := 0) (r := r2) as (r' & Hst & HI & Hc).
  + intros r [H _]. exact H.
  + intros r c a [Hk Hs] Hc Hcc Ha. eexists. split; [|split; [|split]].
    * apply st_set. eapply ev_bin; [eid| |].
      -- eapply ev_call; [|apply (walks_runs k sz HF _ 1 c eq_refl)].
         apply evs_cons; [apply ev_num|].
         apply evs_cons; [eid|]. apply evs_cons; [eid|]. apply evs_cons; [eid|apply evs_nil].
      -- reflexivity.
    * split; lk.
    * lk.
    * lk.
  + intros r v [? ?]. split; lk.
  + lia.
  + lia.
  + split; reflexivity.
  + unfold r2. lk.
  + unfold r2, r1. lk.
  + eapply cl_intro with (r' := r'); [exact Hfind|reflexivity|].
    cbn [f_params entry_values plain_func f_body]. fold r0.
    apply (ex_cons p r0 _ _ r1); [apply st_let; apply ev_num|].
    apply (ex_cons p r1 _ _ r2); [apply st_let; apply ev_num|].
    apply (ex_cons p r2 _ _ r'); [exact Hst|].
    apply ex_stop. apply st_return. apply ev_id. rewrite Hc. f_equal. f_equal. cbn [Z.add].
    destruct k as [|k']; [reflexivity|]. set (k := S k') in *.
    rewrite walks_value by lia.
    rewrite (zsum_ext _ (fun _ => (Z.of_nat k - 1) ^ Z.of_nat (Z.to_nat (sz - 1)))).
    2:{ intros c Hc'. apply walks_value. lia. }
    assert (Hz : forall w lo len, zsum (fun _ => w) lo len = Z.of_nat len * w).
    { intros w lo len. revert lo. induction len as [|len IH]; intros lo; cbn [zsum]; [reflexivity|].
      rewrite IH. lia. }
    apply Hz.
Qed.

Lemma pinned_values_runs k sz :
  find (fun fn => Nat.eqb (f_name fn) E) p
  = Some (plain_func E [KK; SIZE]
      [SLet COUNT (ENum 0); SLet CC (ENum 1);
       SLet VALUESYM (EId KK);
       SSet COUNT (EBin Multiply (EId VALUESYM) (ECall F [ENum 1; ENum 1; EId KK; EId SIZE]));
       SReturn (Some (EId COUNT))]) ->
  find (fun fn => Nat.eqb (f_name fn) F) p = Some (search_values differs (EId KK)) ->
  cl p E [VInt (Z.of_nat k); VInt sz]
    (VInt (Z.of_nat k * walks k (Z.to_nat (sz - 1)) 1)).
Proof.
  intros Hfind HF. eapply cl_intro; [exact Hfind|reflexivity|].
  cbn [f_params plain_func f_body].
  eapply ex_cons; [apply st_let; apply ev_num|].
  eapply ex_cons; [apply st_let; apply ev_num|].
  eapply ex_cons; [apply st_let; eid|].
  eapply ex_cons.
  { apply st_set. eapply ev_bin; [eid| |].
    - eapply ev_call; [|apply (walks_runs k sz HF _ 1 1%nat eq_refl)].
      apply evs_cons; [apply ev_num|]. apply evs_cons; [apply ev_num|].
      apply evs_cons; [eid|]. apply evs_cons; [eid|apply evs_nil].
    - reflexivity. }
  apply ex_stop. apply st_return. eid.
Qed.

End Loops.
