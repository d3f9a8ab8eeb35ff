(** Proofs about the DIMACS reader and printer. *)
From Coq Require Import List Bool ZArith NArith Lia.
From Verif Require Import DimacsModel.
Import ListNotations.
Open Scope N_scope.

(** ** Numerals *)
Definition is_digit (c : N) : Prop := 48 <= c <= 57.
Definition value (ds : text) : N := fold_left (fun a c => a * 10 + (c - 48)) ds 0.
Definition digit_string (ds : text) (n : N) : Prop := ds <> [] /\ Forall is_digit ds /\ value ds = n.
Definition numeral (s : text) (i : Z) : Prop := exists ds n, digit_string ds n /\
  (((s = ds \/ s = 43 :: ds) /\ n < 2 ^ 63 /\ i = Z.of_N n) \/ (s = 45 :: ds /\ n <= 2 ^ 63 /\ i = (- Z.of_N n)%Z)).
Definition natural (s : text) (n : N) : Prop := exists ds, digit_string ds n /\ (s = ds \/ s = 43 :: ds) /\ n < 2 ^ 64.

Lemma digit_spec c d : digit c = Some d <-> is_digit c /\ d = c - 48.
Proof.
  unfold digit, is_digit. destruct (48 <=? c) eqn:A, (c <=? 57) eqn:B; cbn; rewrite ?N.leb_le, ?N.leb_gt in *; split; intros H; try discriminate; try lia.
  - injection H. lia.
  - f_equal. lia.
Qed.
Lemma digits_from_spec s : forall acc n, digits_from acc s = Some n <-> Forall is_digit s /\ fold_left (fun a c => a * 10 + (c - 48)) s acc = n.
Proof.
  induction s as [|c s IH]; intros acc n; cbn.
  - split; [intros [= ->]; auto|intros [_ ->]; auto].
  - destruct (digit c) as [d|] eqn:D.
    + apply digit_spec in D as [D ->]. rewrite IH. split; intros [A B]; [split; [constructor|]|inversion A; subst; split]; auto.
    + split; [discriminate|]. intros [A _]. inversion A as [|x l H]; subst. rewrite (proj2 (digit_spec c (c - 48)) (conj H eq_refl)) in D. discriminate.
Qed.
Lemma digits_spec s n : digits s = Some n <-> digit_string s n.
Proof.
  unfold digits, digit_string. destruct s as [|c s]; [split; [discriminate|intros (H & _); contradiction]|].
  rewrite digits_from_spec. unfold value. split; [intros [A B]; split; [discriminate|auto]|tauto].
Qed.
Lemma parse_usize_eq c s : parse_usize (c :: s) = match (if c =? 43 then digits s else digits (c :: s)) with Some n => if n <? 2 ^ 64 then Some n else None | None => None end.
Proof. unfold parse_usize. destruct c as [|p]; [reflexivity|]. repeat (destruct p as [p|p|]; try reflexivity). Qed.
Lemma parse_i64_eq c s : parse_i64 (c :: s) =
  if c =? 43 then match digits s with Some n => if n <? 2 ^ 63 then Some (Z.of_N n) else None | None => None end
  else if c =? 45 then match digits s with Some n => if n <=? 2 ^ 63 then Some (- Z.of_N n)%Z else None | None => None end
  else match digits (c :: s) with Some n => if n <? 2 ^ 63 then Some (Z.of_N n) else None | None => None end.
Proof. unfold parse_i64. destruct c as [|p]; [reflexivity|]. repeat (destruct p as [p|p|]; try reflexivity). Qed.
Lemma digit_string_head c s n : digit_string (c :: s) n -> c <> 43 /\ c <> 45.
Proof. intros (_ & F & _). inversion F as [|x l H]; subst. unfold is_digit in H. lia. Qed.
Lemma natural_spec s n : parse_usize s = Some n <-> natural s n.
Proof.
  unfold natural. destruct s as [|c s].
  { split; [discriminate|]. intros (ds & (A & _) & [E|E] & _); [subst; contradiction|discriminate]. }
  rewrite parse_usize_eq. destruct (N.eqb_spec c 43) as [->|N].
  - split.
    + destruct (digits s) as [m|] eqn:D; [|discriminate]. destruct (N.ltb_spec m (2 ^ 64)); [|discriminate]. intros [= ->]. apply digits_spec in D. eauto.
    + intros (ds & D & [E|E] & L); [subst; apply digit_string_head in D; tauto|]. injection E as ->. apply digits_spec in D. rewrite D. destruct (N.ltb_spec n (2 ^ 64)); [reflexivity|lia].
  - split.
    + destruct (digits (c :: s)) as [m|] eqn:D; [|discriminate]. destruct (N.ltb_spec m (2 ^ 64)); [|discriminate]. intros [= ->]. apply digits_spec in D. eauto.
    + intros (ds & D & [E|E] & L); [subst|congruence]. apply digits_spec in D. rewrite D. destruct (N.ltb_spec n (2 ^ 64)); [reflexivity|lia].
Qed.
Lemma numeral_spec s i : parse_i64 s = Some i <-> numeral s i.
Proof.
  unfold numeral. destruct s as [|c s].
  { split; [discriminate|]. intros (ds & n & (A & _) & [([E|E] & _)|(E & _)]); [subst; contradiction|discriminate..]. }
  rewrite parse_i64_eq. destruct (N.eqb_spec c 43) as [->|N]; [|destruct (N.eqb_spec c 45) as [->|N']].
  - split.
    + destruct (digits s) as [m|] eqn:D; [|discriminate]. destruct (N.ltb_spec m (2 ^ 63)); [|discriminate]. intros [= <-]. apply digits_spec in D. exists s, m. auto.
    + intros (ds & n & D & [([E|E] & L & ->)|(E & L & ->)]); [subst; apply digit_string_head in D; tauto| |discriminate].
      injection E as ->. apply digits_spec in D. rewrite D. destruct (N.ltb_spec n (2 ^ 63)); [reflexivity|lia].
  - split.
    + destruct (digits s) as [m|] eqn:D; [|discriminate]. destruct (N.leb_spec m (2 ^ 63)); [|discriminate]. intros [= <-]. apply digits_spec in D. exists s, m. auto.
    + intros (ds & n & D & [([E|E] & L & ->)|(E & L & ->)]); [subst; apply digit_string_head in D; tauto|discriminate|].
      injection E as ->. apply digits_spec in D. rewrite D. destruct (N.leb_spec n (2 ^ 63)); [reflexivity|lia].
  - split.
    + destruct (digits (c :: s)) as [m|] eqn:D; [|discriminate]. destruct (N.ltb_spec m (2 ^ 63)); [|discriminate]. intros [= <-]. apply digits_spec in D. exists (c :: s), m. auto.
    + intros (ds & n & D & [([E|E] & L & ->)|(E & L & ->)]); [subst|congruence..]. apply digits_spec in D. rewrite D. destruct (N.ltb_spec n (2 ^ 63)); [reflexivity|lia].
Qed.

(** ** Decimal printing *)
Lemma dec_from_spec n : forall x acc, x < 10 ^ N.of_nat n -> Forall is_digit acc -> 
  Forall is_digit (dec_from n x acc) /\ (forall a, a = 0 -> fold_left (fun a c => a * 10 + (c - 48)) (dec_from n x acc) a = fold_left (fun a c => a * 10 + (c - 48)) acc x).
Proof.
  induction n as [|n IH]; intros x acc L F; cbn [dec_from].
  { cbn in L. assert (x = 0) as -> by lia. split; [auto|]. intros a ->. reflexivity. }
  pose proof (N.mod_lt x 10 ltac:(lia)) as M. pose proof (N.div_mod x 10 ltac:(lia)) as D.
  assert (Forall is_digit ((48 + x mod 10) :: acc)) as F' by (constructor; [unfold is_digit; clear - M; generalize dependent (x mod 10); intros; lia|auto]).
  destruct (N.eqb_spec (x / 10) 0) as [E|E].
  - split; [auto|]. intros a ->. cbn [fold_left]. rewrite E in D. f_equal. rewrite D at 2. generalize dependent (x mod 10). intros. lia.
  - destruct (IH (x / 10) ((48 + x mod 10) :: acc)) as [A B]; [|auto|].
    + apply N.div_lt_upper_bound; [lia|]. rewrite Nat2N.inj_succ, N.pow_succ_r' in L. exact L.
    + split; [auto|]. intros a Ha. rewrite (B a Ha). cbn [fold_left]. f_equal. rewrite D at 3. generalize dependent (x mod 10). intros. lia.
Qed.
Lemma dec_from_nonempty n x acc : dec_from (S n) x acc <> [].
Proof. revert x acc. induction n as [|n IH]; intros x acc; cbn [dec_from]; destruct (x / 10 =? 0); try discriminate. apply IH. Qed.
Lemma dec_spec x : digit_string (dec x) x.
Proof.
  unfold dec. destruct (dec_from_spec (S (N.size_nat x)) x []) as [A B]; [|constructor|].
  - assert (x < 2 ^ N.of_nat (N.size_nat x)) as H.
    { destruct x as [|p]; [cbn; lia|].
      assert (N.of_nat (N.size_nat (N.pos p)) = N.size (N.pos p)) as ->; [|apply N.size_gt].
      cbn. clear. induction p as [p IH|p IH|]; cbn [Pos.size_nat Pos.size]; [rewrite Nat2N.inj_succ, IH; reflexivity..|reflexivity]. }
    eapply N.lt_le_trans; [exact H|]. eapply N.le_trans; [apply N.pow_le_mono_l with (b := 10); lia|]. apply N.pow_le_mono_r; lia.
  - split; [apply dec_from_nonempty|]. split; [exact A|]. unfold value. rewrite (B 0 eq_refl). reflexivity.
Qed.
Lemma digit_no_ws c : is_digit c -> is_ws c = false.
Proof. unfold is_digit, is_ws. intros H. rewrite !orb_false_iff, !andb_false_iff, !N.eqb_neq, !N.leb_gt. lia. Qed.

(** ** Words and lines *)
Definition no_ws (s : text) : Prop := Forall (fun c => is_ws c = false) s.
Lemma dec_no_ws x : no_ws (dec x).
Proof. destruct (dec_spec x) as (_ & F & _). eapply Forall_impl; [|exact F]. exact digit_no_ws. Qed.
Lemma split_word tok : forall cur c s, no_ws tok -> is_ws c = true -> cur ++ tok <> [] -> split_from cur (tok ++ c :: s) = (cur ++ tok) :: split_from [] s.
Proof.
  induction tok as [|x tok IH]; intros cur c s N W E; cbn.
  - rewrite W. rewrite app_nil_r in *. destruct cur; [contradiction|reflexivity].
  - inversion N as [|y l H1 H2]; subst. rewrite H1, IH; auto.
    + f_equal. rewrite <- app_assoc. reflexivity.
    + rewrite <- app_assoc. exact E.
Qed.
Lemma split_last tok : forall cur, no_ws tok -> cur ++ tok <> [] -> split_from cur tok = [cur ++ tok].
Proof.
  induction tok as [|x tok IH]; intros cur N E; cbn.
  - rewrite app_nil_r in *. destruct cur; [contradiction|reflexivity].
  - inversion N as [|y l H1 H2]; subst. rewrite H1, IH; auto; rewrite <- app_assoc; auto.
Qed.
Lemma lines_step a : forall cur b, Forall (fun c => c <> 10) a -> lines_from cur (a ++ 10 :: b) = (cur ++ a) :: lines_from [] b.
Proof.
  induction a as [|x a IH]; intros cur b F; cbn.
  - rewrite app_nil_r. reflexivity.
  - inversion F as [|y l H1 H2]; subst. destruct (N.eqb_spec x 10); [contradiction|]. rewrite IH by auto. rewrite <- app_assoc. reflexivity.
Qed.
Lemma trim_id c s d : is_ws c = false -> is_ws d = false -> trim (c :: s ++ [d]) = c :: s ++ [d].
Proof.
  intros A B. unfold trim. cbn [trim_start]. rewrite A. cbn [rev]. rewrite rev_app_distr. cbn [rev app]. cbn [trim_start]. rewrite B.
  cbn [rev]. rewrite rev_app_distr, rev_involutive. reflexivity.
Qed.

(** ** Reading *)
Lemma read_trimmed : forall ls header cs cur,
  read_lines header cs cur ls = read_lines header cs cur (filter (fun l => negb (skipped (trim l))) ls).
Proof.
  induction ls as [|l ls IH]; intros header cs cur; cbn [filter]; [reflexivity|]. destruct (skipped (trim l)) eqn:S; cbn [negb].
  - cbn [read_lines]. rewrite S. apply IH.
  - cbn [read_lines]. rewrite S. destruct (strip_p (trim l)) as [rest|].
    + destruct header; [reflexivity|]. destruct (read_header (trim l) rest); [apply IH|reflexivity].
    + destruct header as [n|]; [|reflexivity]. destruct (read_tokens n cs cur (split_whitespace (trim l))) as [[cs' cur']|]; [apply IH|reflexivity].
Qed.
Definition lit_of (i : Z) : lit := lit_new ((Z.abs_N i - 1) mod 2 ^ 32) (0 <? i)%Z.
Fixpoint assemble (cs : list (list lit)) (cur : list lit) (is : list Z) : list (list lit) * list lit :=
  match is with [] => (cs, cur) | i :: is => if (i =? 0)%Z then assemble (cs ++ [cur]) [] is else assemble cs (cur ++ [lit_of i]) is end.
Lemma read_tokens_spec n toks : forall cs cur st, read_tokens n cs cur toks = Ok st <->
  exists is, Forall2 numeral toks is /\ Forall (fun i => (Z.abs_N i <= n)) is /\ assemble cs cur is = st.
Proof.
  induction toks as [|tok toks IH]; intros cs cur st; cbn [read_tokens].
  - split; [intros [= <-]; exists []; auto|]. intros (is & F & _ & E). inversion F; subst. reflexivity.
  - destruct (parse_i64 tok) as [i|] eqn:P.
    + apply numeral_spec in P. destruct (Z.eqb_spec i 0) as [->|Nz].
      * rewrite IH. split; [intros (is & F & R & E); exists (0%Z :: is); split; [constructor; auto|split; [constructor; [cbn; lia|auto]|exact E]]|].
        intros (is & F & R & E). inversion F as [|a b c d H1 H2]; subst. assert (b = 0%Z) as -> by (apply numeral_spec in H1, P; congruence).
        inversion R; subst. eauto.
      * destruct (N.ltb_spec n (Z.abs_N i)) as [L|L].
        -- split; [discriminate|]. intros (is & F & R & E). inversion F as [|a b c d H1 H2]; subst. assert (b = i) as -> by (apply numeral_spec in H1, P; congruence).
           inversion R; subst. lia.
        -- fold (lit_of i). rewrite IH. split.
           ++ intros (is & F & R & E). exists (i :: is). split; [constructor; auto|]. split; [constructor; auto|]. cbn. rewrite (proj2 (Z.eqb_neq i 0) Nz). exact E.
           ++ intros (is & F & R & E). inversion F as [|a b c d H1 H2]; subst. assert (b = i) as -> by (apply numeral_spec in H1, P; congruence).
              inversion R; subst. exists d. split; [auto|]. split; [auto|]. cbn. rewrite (proj2 (Z.eqb_neq i 0) Nz). reflexivity.
    + split; [discriminate|]. intros (is & F & _). inversion F as [|a b c d H1 H2]; subst. apply numeral_spec in H1. congruence.
Qed.
Lemma assemble_app is : forall cs cur js, assemble cs cur (is ++ js) = let '(cs', cur') := assemble cs cur is in assemble cs' cur' js.
Proof. induction is as [|i is IH]; intros cs cur js; cbn; [reflexivity|]. destruct (i =? 0)%Z; apply IH. Qed.
(** The clauses of [is]: maximal runs of other numbers, each ended by a zero. *)
Lemma assemble_clause c : Forall (fun i => i <> 0%Z) c -> forall cs cur is, assemble cs cur (c ++ 0%Z :: is) = assemble (cs ++ [cur ++ map lit_of c]) [] is.
Proof.
  induction c as [|i c IH]; intros F cs cur is; cbn.
  - rewrite app_nil_r. reflexivity.
  - inversion F as [|x l H1 H2]; subst. rewrite (proj2 (Z.eqb_neq i 0) H1), (IH H2). rewrite <- app_assoc. reflexivity.
Qed.
Lemma assemble_clauses css : Forall (Forall (fun i => i <> 0%Z)) css -> forall cs, assemble cs [] (concat (map (fun c => c ++ [0%Z]) css)) = (cs ++ map (map lit_of) css, []).
Proof.
  induction css as [|c css IH]; intros F cs; cbn; [rewrite app_nil_r; reflexivity|]. inversion F as [|x l H1 H2]; subst.
  rewrite <- app_assoc. cbn [app]. rewrite (assemble_clause c H1), (IH H2). cbn. rewrite <- app_assoc. reflexivity.
Qed.
Lemma split_clauses is : exists css rest, is = concat (map (fun c => c ++ [0%Z]) css) ++ rest /\ Forall (Forall (fun i => i <> 0%Z)) css /\ Forall (fun i => i <> 0%Z) rest.
Proof.
  induction is as [|i is (css & rest & -> & F & R)]; [exists [], []; auto|]. destruct (Z.eq_dec i 0) as [->|N].
  - exists ([] :: css), rest. cbn. auto.
  - destruct css as [|c css].
    + exists [], (i :: rest). cbn. auto.
    + exists ((i :: c) :: css), rest. cbn. inversion F; subst. auto.
Qed.
Lemma assemble_rest rest : Forall (fun i => i <> 0%Z) rest -> forall cs cur, assemble cs cur rest = (cs, cur ++ map lit_of rest).
Proof.
  induction rest as [|i rest IH]; intros F cs cur; cbn; [rewrite app_nil_r; reflexivity|]. inversion F as [|x l H1 H2]; subst.
  rewrite (proj2 (Z.eqb_neq i 0) H1), (IH H2), <- app_assoc. reflexivity.
Qed.
Lemma assemble_done is cs : assemble [] [] is = (cs, []) <-> exists css, is = concat (map (fun c => c ++ [0%Z]) css) /\ Forall (Forall (fun i => i <> 0%Z)) css /\ cs = map (map lit_of) css.
Proof.
  split.
  - destruct (split_clauses is) as (css & rest & -> & F & R). rewrite assemble_app, assemble_clauses by auto. rewrite assemble_rest by auto. cbn.
    intros [= <- E]. apply map_eq_nil in E as ->. exists css. rewrite app_nil_r. auto.
  - intros (css & -> & F & ->). rewrite assemble_clauses by auto. reflexivity.
Qed.
(** Reading the lines after the header. *)
Definition relevant (l : text) : bool := negb (skipped l).
Lemma read_body n ls : forall cs cur f, Forall (fun l => skipped (trim l) = false) ls -> read_lines (Some n) cs cur ls = Ok f <->
  Forall (fun l => strip_p (trim l) = None) ls /\ exists is cs', Forall2 numeral (concat (map (fun l => split_whitespace (trim l)) ls)) is /\ Forall (fun i => Z.abs_N i <= n) is /\
  assemble cs cur is = (cs', []) /\ f = Cnf n cs'.
Proof.
  induction ls as [|l ls IH]; intros cs cur f S; cbn [read_lines map concat].
  - split.
    + destruct cur; [|discriminate]. intros [= <-]. split; [auto|]. exists [], cs. auto.
    + intros (_ & is & cs' & F & _ & E & ->). inversion F; subst. cbn in E. injection E as -> ->. reflexivity.
  - inversion S as [|x y S1 S2]; subst. rewrite S1. destruct (strip_p (trim l)) as [rest|] eqn:P.
    + split; [discriminate|]. intros (F & _). inversion F; congruence.
    + destruct (read_tokens n cs cur (split_whitespace (trim l))) as [[cs1 cur1]|e] eqn:R.
      * apply read_tokens_spec in R as (is & F & B & E). rewrite (IH _ _ _ S2). split.
        -- intros (Q & js & cs' & F' & B' & E' & ->). split; [auto|]. exists (is ++ js), cs'. split; [apply Forall2_app; auto|]. split; [apply Forall_app; auto|].
           rewrite assemble_app, E. auto.
        -- intros (Q & js & cs' & F' & B' & E' & ->). inversion Q; subst. split; [auto|].
           apply Forall2_app_inv_l in F' as (j1 & j2 & F1 & F2 & ->). apply Forall_app in B' as [_ B2].
           assert (j1 = is) as ->.
           { clear - F F1. revert j1 F1. induction F as [|a b u v H1 H2 IH]; intros j1 F1; inversion F1 as [|a' b' u' v' H3 H4]; subst; [reflexivity|].
             f_equal; [apply numeral_spec in H1, H3; congruence|auto]. }
           rewrite assemble_app, E in E'. eauto 8.
      * split; [discriminate|]. intros (Q & js & cs' & F' & B' & E' & ->). exfalso.
        apply Forall2_app_inv_l in F' as (j1 & j2 & F1 & F2 & ->). apply Forall_app in B' as [B1 _].
        assert (read_tokens n cs cur (split_whitespace (trim l)) = Ok (assemble cs cur j1)) as K by (apply read_tokens_spec; eauto). congruence.
Qed.
Lemma strip_p_spec s r : strip_p s = Some r <-> s = 112 :: 32 :: r.
Proof.
  unfold strip_p. split; [|intros ->; reflexivity]. destruct s as [|a s]; [discriminate|]. intros H.
  assert (a = 112) as ->. { destruct a as [|p]; [discriminate|]. repeat (destruct p as [p|p|]; try discriminate). reflexivity. }
  destruct s as [|b s]; [discriminate|]. assert (b = 32) as ->. { destruct b as [|p]; [discriminate|]. repeat (destruct p as [p|p|]; try discriminate). reflexivity. }
  injection H as ->. reflexivity.
Qed.
Lemma read_header_spec line rest n : read_header line rest = Ok n <-> exists nv nc k, split_whitespace rest = [[99; 110; 102]; nv; nc] /\ natural nv n /\ natural nc k.
Proof.
  unfold read_header. split.
  - intros H. destruct (split_whitespace rest) as [|w toks]; [discriminate|].
    assert (w = [99; 110; 102] /\ exists nv nc, toks = [nv; nc]) as (-> & nv & nc & ->).
    { clear - H. destruct w as [|a w]; [discriminate|]. destruct a as [|a]; [discriminate|]. repeat (destruct a as [a|a|]; try discriminate).
      destruct w as [|b w]; [discriminate|]. destruct b as [|b]; [discriminate|]. repeat (destruct b as [b|b|]; try discriminate).
      destruct w as [|c w]; [discriminate|]. destruct c as [|c]; [discriminate|]. repeat (destruct c as [c|c|]; try discriminate).
      destruct w as [|d w]; [|discriminate]. destruct toks as [|nv [|nc [|? ?]]]; try discriminate. eauto. }
    destruct (parse_usize nv) as [m|] eqn:A; [|discriminate]. destruct (parse_usize nc) as [k|] eqn:B; [|discriminate]. injection H as ->.
    apply natural_spec in A, B. exists nv, nc, k. auto.
  - intros (nv & nc & k & -> & A & B). apply natural_spec in A, B. rewrite A, B. reflexivity.
Qed.
