(** C96: reading and printing DIMACS files. *)
From Coq Require Import List Bool ZArith NArith Lia.
From Verif Require Import DimacsModel DimacsProofs.
Import ListNotations.
Open Scope N_scope.

(** A line counts unless, trimmed, it is empty or starts with c. *)
Definition counts (l : text) : Prop := trim l <> [] /\ forall r, trim l <> 99 :: r.
Lemma counts_spec l : skipped (trim l) = false <-> counts l.
Proof.
  unfold counts, skipped. destruct (trim l) as [|c r]; [split; [discriminate|intros [H _]; contradiction]|].
  rewrite N.eqb_neq. split; [intros H; split; [discriminate|congruence]|]. intros [_ H] ->. apply (H r). reflexivity.
Qed.
Definition body_lines (s : text) : list text := filter (fun l => negb (skipped (trim l))) (lines s).
Lemma body_lines_counts s : Forall counts (body_lines s).
Proof. apply Forall_forall. intros l H. apply filter_In in H as [_ H]. apply counts_spec. destruct (skipped (trim l)); [discriminate|reflexivity]. Qed.

(** A file reads as [f] exactly when its lines that count are one header "p cnf n k" and then lines holding the literals of the clauses of [f], each clause ended by 0 and no literal beyond n in size. *)
Theorem C96_exact s f : parse s = Ok f <->
  exists hdr body rest nv nc n k css,
    body_lines s = hdr :: body /\ trim hdr = 112 :: 32 :: rest /\ split_whitespace rest = [[99; 110; 102]; nv; nc] /\ natural nv n /\ natural nc k /\
    Forall (fun l => forall r, trim l <> 112 :: 32 :: r) body /\
    Forall2 numeral (concat (map (fun l => split_whitespace (trim l)) body)) (concat (map (fun c => c ++ [0%Z]) css)) /\
    (forall c i, In c css -> In i c -> i <> 0%Z /\ (Z.abs i <= Z.of_N n)%Z) /\
    f = Cnf n (map (map lit_of) css).
Proof.
  unfold parse. rewrite read_trimmed. fold (body_lines s). pose proof (body_lines_counts s) as C.
  destruct (body_lines s) as [|hdr body].
  { split; [discriminate|]. intros (hdr & body & rest & nv & nc & n & k & css & E & _). discriminate. }
  inversion C as [|x y C1 C2]; subst. apply counts_spec in C1. cbn [read_lines]. rewrite C1.
  assert (Forall (fun l => skipped (trim l) = false) body) as S by (eapply Forall_impl; [|exact C2]; intros l; apply counts_spec).
  destruct (strip_p (trim hdr)) as [rest|] eqn:P.
  - apply strip_p_spec in P. destruct (read_header (trim hdr) rest) as [n|e] eqn:R.
    + apply read_header_spec in R as (nv & nc & k & SW & A & B). rewrite (read_body n body [] [] f S). split.
      * intros (F & is & cs' & F2 & Rg & E & ->). apply assemble_done in E as (css & -> & Nz & ->).
        exists hdr, body, rest, nv, nc, n, k, css. repeat split; auto.
        -- eapply Forall_impl; [|exact F]. intros l Hl r E. apply strip_p_spec in E. cbv beta in Hl. congruence.
        -- rewrite Forall_forall in Nz. specialize (Nz c H). rewrite Forall_forall in Nz. auto.
        -- rewrite Forall_forall in Rg. specialize (Rg i). rewrite in_concat in Rg.
           assert (Z.abs_N i <= n); [|lia]. apply Rg. exists (c ++ [0%Z]). split; [apply in_map_iff; eauto|apply in_or_app; auto].
      * intros (hdr' & body' & rest' & nv' & nc' & n' & k' & css & E & P' & SW' & A' & B' & F & F2 & Rg & ->). injection E as <- <-.
        rewrite P in P'. injection P' as <-. rewrite SW in SW'. injection SW' as <- <-.
        assert (n' = n) as -> by (apply natural_spec in A, A'; congruence). split.
        -- eapply Forall_impl; [|exact F]. intros l Hl. destruct (strip_p (trim l)) as [r|] eqn:Q; [|reflexivity]. apply strip_p_spec in Q. destruct (Hl r Q).
        -- exists (concat (map (fun c => c ++ [0%Z]) css)), (map (map lit_of) css). split; [auto|]. split.
           ++ apply Forall_forall. intros i Hi. apply in_concat in Hi as (c' & Hc & Hi). apply in_map_iff in Hc as (c & <- & Hc). apply in_app_or in Hi as [Hi|[<-|[]]]; [|cbn; lia].
              destruct (Rg c i Hc Hi). lia.
           ++ split; [|reflexivity]. apply assemble_done. exists css. split; [auto|]. split; [|auto]. apply Forall_forall. intros c Hc. apply Forall_forall. intros i Hi. apply (Rg c i Hc Hi).
    + split; [discriminate|]. intros (hdr' & body' & rest' & nv' & nc' & n' & k' & css & E & P' & SW' & A' & B' & _). exfalso. injection E as <- <-.
      rewrite P in P'. injection P' as <-. assert (read_header (trim hdr) rest = Ok n') as K by (apply read_header_spec; eauto 8). congruence.
  - split; [discriminate|]. intros (hdr' & body' & rest' & nv' & nc' & n' & k' & css & E & P' & _). injection E as <- <-. apply strip_p_spec in P'. congruence.
Qed.

(** With at most 2^31 variables each literal read is the one written. *)
Lemma lit_new_spec v b : v < 2 ^ 31 -> lit_var (lit_new v b) = v /\ lit_positive (lit_new v b) = b /\ lit_new v b < 2 ^ 32.
Proof.
  intros L. unfold lit_var, lit_positive, lit_new. rewrite (N.mod_small (v * 2)) by lia. destruct b.
  - rewrite N.add_0_r. rewrite N.div_mul by lia. rewrite N.mul_comm. split; [reflexivity|]. split; [|lia]. rewrite N.even_mul. reflexivity.
  - rewrite N.div_add_l by lia. split; [cbn; lia|]. split; [|lia]. rewrite N.even_add, N.even_mul. cbn. rewrite orb_true_r. reflexivity.
Qed.
Theorem C96_literals s f : parse s = Ok f -> num_vars f <= 2 ^ 31 ->
  exists css : list (list Z), clauses f = map (map lit_of) css /\
    forall c i, In c css -> In i c -> i <> 0%Z /\ lit_var (lit_of i) = Z.abs_N i - 1 /\ lit_positive (lit_of i) = (0 <? i)%Z /\ lit_var (lit_of i) < num_vars f.
Proof.
  intros P L. apply C96_exact in P as (hdr & body & rest & nv & nc & n & k & css & _ & _ & _ & _ & _ & _ & _ & R & ->). cbn in *.
  exists css. split; [reflexivity|]. intros c i Hc Hi. destruct (R c i Hc Hi) as [Nz B]. split; [exact Nz|].
  unfold lit_of. rewrite (N.mod_small (Z.abs_N i - 1)) by lia. destruct (lit_new_spec (Z.abs_N i - 1) (0 <? i)%Z) as (A & D & _); [lia|]. rewrite A. repeat split; auto. lia.
Qed.
(** Nothing read has a variable out of range, however large the header's count. *)
Theorem C96_in_range s f : parse s = Ok f -> forall c l, In c (clauses f) -> In l c -> lit_var l < num_vars f /\ l < 2 ^ 32.
Proof.
  intros P c l Hc Hl. apply C96_exact in P as (hdr & body & rest & nv & nc & n & k & css & _ & _ & _ & _ & _ & _ & _ & R & ->). cbn in *.
  apply in_map_iff in Hc as (c' & <- & Hc). apply in_map_iff in Hl as (i & <- & Hi). destruct (R c' i Hc Hi) as [Nz B].
  assert (forall x, lit_var (lit_new x (0 <? i)%Z) <= x /\ lit_new x (0 <? i)%Z < 2 ^ 32) as K.
  { intros x. unfold lit_var, lit_new. replace (2 ^ 32) with (2 * 2 ^ 31) by reflexivity. rewrite (N.mul_comm x 2), N.mul_mod_distr_l by lia.
    pose proof (N.mod_lt x (2 ^ 31) ltac:(lia)) as Q. pose proof (N.mod_le x (2 ^ 31) ltac:(lia)) as Q'. generalize dependent (x mod 2 ^ 31). intros q Q Q'. split.
    - assert ((2 * q + (if (0 <? i)%Z then 0 else 1)) / 2 = q) as ->; [|auto]. rewrite N.mul_comm, N.div_add_l by lia. destruct (0 <? i)%Z; cbn; lia.
    - destruct (0 <? i)%Z; lia. }
  destruct (K ((Z.abs_N i - 1) mod 2 ^ 32)) as [K1 K2]. split; [|exact K2]. unfold lit_of. eapply N.le_lt_trans; [exact K1|].
  eapply N.le_lt_trans; [apply N.mod_le; lia|]. lia.
Qed.

(** Adding or removing a comment line, or a blank one, anywhere changes nothing. *)
Lemma lines_app a : forall cur b, lines_from cur (a ++ 10 :: b) = lines_from cur a ++ lines_from [] b.
Proof. induction a as [|x a IH]; intros cur b; cbn; [reflexivity|]. destruct (x =? 10); rewrite IH; reflexivity. Qed.
Theorem C96_comment a b l : ~ In 10 l -> (trim l = [] \/ exists r, trim l = 99 :: r) -> parse (a ++ 10 :: l ++ 10 :: b) = parse (a ++ 10 :: b).
Proof.
  intros N T. unfold parse, lines. rewrite !(lines_app a). rewrite (lines_step l) by (apply Forall_forall; intros x Hx ->; contradiction). cbn [app].
  rewrite read_trimmed, (read_trimmed (lines_from [] a ++ lines_from [] b)). rewrite !filter_app. cbn [filter].
  assert (skipped (trim l) = true) as ->; [|reflexivity]. destruct T as [->|[r ->]]; reflexivity.
Qed.

(** Printing and reading back. *)
Definition well_formed (f : cnf) : Prop :=
  num_vars f < 2 ^ 64 /\ N.of_nat (length (clauses f)) < 2 ^ 64 /\ forall c l, In c (clauses f) -> In l c -> l < 2 ^ 32 /\ lit_var l < num_vars f.
Definition lit_int (l : lit) : Z := (if lit_positive l then Z.of_N (lit_var l + 1) else - Z.of_N (lit_var l + 1))%Z.
Definition lit_text (l : lit) : text := (if lit_positive l then [] else [45]) ++ dec (lit_var l + 1).
Lemma var_bound l : l < 2 ^ 32 -> lit_var l < 2 ^ 31.
Proof. intros H. unfold lit_var. apply N.div_lt_upper_bound; lia. Qed.
Lemma lit_text_numeral l : l < 2 ^ 32 -> numeral (lit_text l) (lit_int l).
Proof.
  intros H. apply var_bound in H. exists (dec (lit_var l + 1)), (lit_var l + 1). split; [apply dec_spec|]. unfold lit_text, lit_int. destruct (lit_positive l).
  - left. repeat split; auto. lia.
  - right. repeat split; auto. lia.
Qed.
Lemma lit_of_int l : l < 2 ^ 32 -> lit_of (lit_int l) = l.
Proof.
  intros H. pose proof (var_bound l H) as B. unfold lit_of. assert (Z.abs_N (lit_int l) - 1 = lit_var l) as ->.
  { unfold lit_int. destruct (lit_positive l); lia. }
  rewrite (N.mod_small (lit_var l)) by lia. unfold lit_new. rewrite (N.mod_small (lit_var l * 2)) by lia.
  assert ((0 <? lit_int l)%Z = lit_positive l) as ->. { unfold lit_int. destruct (lit_positive l); [apply Z.ltb_lt|apply Z.ltb_ge]; lia. }
  unfold lit_var, lit_positive. pose proof (N.div_mod l 2 ltac:(lia)) as D. destruct (N.even l) eqn:E.
  - apply N.even_spec in E as [m ->]. rewrite (N.mul_comm 2 m), N.div_mul by lia. lia.
  - assert (N.odd l = true) as O by (rewrite <- N.negb_even, E; reflexivity). apply N.odd_spec in O as [m ->].
    rewrite (N.mul_comm 2 m), N.div_add_l by lia. cbn. lia.
Qed.
Lemma lit_text_no_ws l : no_ws (lit_text l).
Proof. unfold lit_text. apply Forall_app. split; [destruct (lit_positive l); repeat constructor|apply dec_no_ws]. Qed.
Lemma lit_text_nonempty l : lit_text l <> [].
Proof. unfold lit_text. intros E. apply app_eq_nil in E as [_ E]. destruct (dec_spec (lit_var l + 1)) as [N _]. contradiction. Qed.
Lemma lit_text_head l : exists c r, lit_text l = c :: r /\ (c = 45 \/ is_digit c).
Proof.
  unfold lit_text. destruct (lit_positive l); [|cbn [app]; eauto]. destruct (dec_spec (lit_var l + 1)) as (N & F & _). cbn [app]. destruct (dec (lit_var l + 1)) as [|c r]; [contradiction|].
  inversion F; subst. eauto.
Qed.
(** The line of a clause, without its line feed. *)
Definition clause_text (c : list lit) : text := concat (map print_lit c) ++ [48].
Lemma print_lit_eq l : print_lit l = lit_text l ++ [32].
Proof. unfold print_lit, lit_text. rewrite app_assoc. reflexivity. Qed.
Lemma clause_tokens c : split_whitespace (clause_text c) = map lit_text c ++ [[48]].
Proof.
  unfold split_whitespace, clause_text. induction c as [|l c IH]; [reflexivity|]. cbn [map concat]. rewrite print_lit_eq, <- !app_assoc. cbn [app].
  rewrite split_word; [|apply lit_text_no_ws|reflexivity|apply lit_text_nonempty]. rewrite IH. reflexivity.
Qed.
Lemma clause_trim c : trim (clause_text c) = clause_text c /\ exists x r, clause_text c = x :: r /\ (x = 45 \/ is_digit x).
Proof.
  unfold clause_text. destruct c as [|l c].
  - split; [reflexivity|]. exists 48, []. split; [reflexivity|]. right. unfold is_digit. lia.
  - cbn [map concat]. rewrite print_lit_eq, <- !app_assoc. destruct (lit_text_head l) as (x & r & -> & H). split; [|cbn; eauto].
    replace ((x :: r) ++ [32] ++ concat (map print_lit c) ++ [48]) with (x :: (r ++ [32] ++ concat (map print_lit c)) ++ [48]) by (cbn; rewrite <- !app_assoc; reflexivity).
    apply trim_id; [|reflexivity]. destruct H as [->|H]; [reflexivity|apply digit_no_ws, H].
Qed.
Lemma no_ws_no_nl s : no_ws s -> Forall (fun c => c <> 10) s.
Proof. intros H. eapply Forall_impl; [|exact H]. cbv beta. intros c E ->. discriminate. Qed.
Lemma clause_no_nl c : Forall (fun x => x <> 10) (clause_text c).
Proof.
  unfold clause_text. apply Forall_app. split; [|constructor; [lia|constructor]]. induction c as [|l c IH]; [constructor|]. cbn [map concat]. rewrite print_lit_eq.
  rewrite !Forall_app. split; [split|exact IH]; [apply no_ws_no_nl, lit_text_no_ws|constructor; [lia|constructor]].
Qed.
Lemma clause_lines cs : lines_from [] (concat (map print_clause cs)) = map clause_text cs ++ [[]].
Proof.
  induction cs as [|c cs IH]; [reflexivity|]. cbn [map concat]. unfold print_clause at 1.
  replace ((concat (map print_lit c) ++ [48; 10]) ++ concat (map print_clause cs)) with (clause_text c ++ 10 :: concat (map print_clause cs)).
  2: { unfold clause_text. rewrite <- !app_assoc. reflexivity. }
  rewrite lines_step by apply clause_no_nl. rewrite IH. reflexivity.
Qed.
Lemma clauses_kept cs : filter (fun l => negb (skipped (trim l))) (map clause_text cs) = map clause_text cs.
Proof.
  induction cs as [|c cs IH]; [reflexivity|]. cbn [map filter]. destruct (clause_trim c) as [-> (x & r & E & H)]. rewrite E at 1. cbn [skipped].
  assert ((x =? 99) = false) as ->; [apply N.eqb_neq; unfold is_digit in H; lia|]. cbn [negb]. rewrite IH. reflexivity.
Qed.
Theorem C96_round_trip f : well_formed f -> parse (print f) = Ok f.
Proof.
  intros (Hn & Hk & Hl). apply C96_exact. set (nv := dec (num_vars f)). set (nc := dec (N.of_nat (length (clauses f)))).
  set (hdr := [112; 32; 99; 110; 102; 32] ++ nv ++ [32] ++ nc).
  assert (lines (print f) = hdr :: map clause_text (clauses f) ++ [[]]) as L.
  { unfold lines, print. fold nv nc. rewrite <- clause_lines.
    replace ([112; 32; 99; 110; 102; 32] ++ nv ++ [32] ++ nc ++ [10] ++ concat (map print_clause (clauses f))) with (hdr ++ 10 :: concat (map print_clause (clauses f))).
    2: { unfold hdr. rewrite <- !app_assoc. reflexivity. }
    rewrite lines_step; [reflexivity|]. unfold hdr. rewrite !Forall_app. repeat split; try (apply no_ws_no_nl, dec_no_ws); repeat constructor; lia. }
  assert (exists m d, hdr = 112 :: m ++ [d] /\ is_ws d = false) as (m & d & Eh & Wd).
  { destruct (exists_last (l := nc)) as (m & d & E); [destruct (dec_spec (N.of_nat (length (clauses f)))) as [N _]; exact N|].
    exists ([32; 99; 110; 102; 32] ++ nv ++ [32] ++ m), d. split; [unfold hdr; rewrite E; cbn; rewrite <- !app_assoc; reflexivity|].
    pose proof (dec_no_ws (N.of_nat (length (clauses f)))) as W. fold nc in W. rewrite E in W. apply Forall_app in W as [_ W]. inversion W; auto. }
  assert (trim hdr = hdr) as T by (rewrite Eh; apply trim_id; auto).
  assert (body_lines (print f) = hdr :: map clause_text (clauses f)) as B.
  { unfold body_lines. rewrite L. cbn [filter]. rewrite T. assert (skipped hdr = false) as -> by (rewrite Eh; reflexivity). cbn [negb]. rewrite filter_app.
    cbn [filter]. cbn [trim trim_start rev skipped negb]. rewrite app_nil_r, clauses_kept. reflexivity. }
  exists hdr, (map clause_text (clauses f)), ([99; 110; 102; 32] ++ nv ++ [32] ++ nc), nv, nc, (num_vars f), (N.of_nat (length (clauses f))), (map (map lit_int) (clauses f)).
  split; [exact B|]. split; [exact T|]. split; [|split; [|split; [|split; [|split; [|split]]]]].
  - unfold split_whitespace. change ([99; 110; 102; 32] ++ nv ++ [32] ++ nc) with ([99; 110; 102] ++ 32 :: nv ++ 32 :: nc).
    rewrite split_word; [|repeat constructor|reflexivity|discriminate]. rewrite split_word; [|apply dec_no_ws|reflexivity|apply dec_spec].
    rewrite split_last; [reflexivity|apply dec_no_ws|apply dec_spec].
  - exists nv. split; [apply dec_spec|]. auto.
  - exists nc. split; [apply dec_spec|]. auto.
  - apply Forall_forall. intros l H r E. apply in_map_iff in H as (c & <- & _). destruct (clause_trim c) as [T' (x & r' & E' & H')]. rewrite T', E' in E. injection E as -> _.
    unfold is_digit in H'. lia.
  - rewrite !map_map. clear - Hl. induction (clauses f) as [|c cs IH]; [constructor|]. cbn [map concat]. destruct (clause_trim c) as [-> _]. rewrite clause_tokens.
    apply Forall2_app; [|apply IH; intros c' l Hc; apply Hl; right; exact Hc]. apply Forall2_app.
    + assert (forall l, In l c -> l < 2 ^ 32) as K by (intros l H; apply (Hl c l); [left; reflexivity|exact H]). clear - K. induction c as [|l c IH]; constructor; [apply lit_text_numeral, K; left; reflexivity|].
      apply IH. intros l' H. apply K. right. exact H.
    + constructor; [|constructor]. exists [48], 0. split; [|left; repeat split; auto]. split; [discriminate|]. split; [repeat constructor; lia|reflexivity].
  - intros c i Hc Hi. apply in_map_iff in Hc as (c' & <- & Hc). apply in_map_iff in Hi as (l & <- & Hi). destruct (Hl c' l Hc Hi) as [A C]. unfold lit_int.
    destruct (lit_positive l); lia.
  - rewrite map_map. destruct f as [n cs]. cbn in *. f_equal. clear - Hl. induction cs as [|c cs IH]; [reflexivity|]. cbn [map]. f_equal.
    + assert (forall l, In l c -> l < 2 ^ 32) as K by (intros l H; apply (Hl c l); [left; reflexivity|exact H]). clear - K. induction c as [|l c IH]; [reflexivity|]. cbn [map]. f_equal.
      * symmetry. apply lit_of_int, K. left. reflexivity.
      * apply IH. intros l' H. apply K. right. exact H.
    + apply IH. intros c' l Hc. apply Hl. right. exact Hc.
Qed.
(** Formulas that were read survive the trip, whenever their clauses can be counted. *)
Corollary C96_reread s f : parse s = Ok f -> N.of_nat (length (clauses f)) < 2 ^ 64 -> parse (print f) = Ok f.
Proof.
  intros P L. apply C96_round_trip. split; [|split; [exact L|]].
  - apply C96_exact in P as (hdr & body & rest & nv & nc & n & k & css & _ & _ & _ & (ds & _ & _ & B) & _ & _ & _ & _ & ->). exact B.
  - intros c l Hc Hl. destruct (C96_in_range s f P c l Hc Hl). auto.
Qed.

(** p cnf 2147483649 1 / 2147483649 0: the only variable used is the last one; what is read is variable 1. *)
Theorem C96_mangled_refuted : exists s f c i, parse s = Ok f /\ clauses f = [[lit_of i]] /\ i = 2147483649%Z /\ c = lit_of 1 /\ lit_of i = c /\
  parse (print f) = Ok f /\ print f <> s.
Proof.
  exists ([112; 32; 99; 110; 102; 32] ++ dec 2147483649 ++ [32; 49; 10] ++ dec 2147483649 ++ [32; 48; 10]), (Cnf 2147483649 [[0]]), 0, 2147483649%Z.
  split; [vm_compute; reflexivity|]. split; [vm_compute; reflexivity|]. split; [reflexivity|]. split; [vm_compute; reflexivity|]. split; [vm_compute; reflexivity|].
  split; [vm_compute; reflexivity|]. vm_compute. discriminate.
Qed.
(** A formula built by hand with a variable beyond its count prints to a file that is not read back. *)
Theorem C96_round_trip_refuted : exists f, parse (print f) <> Ok f.
Proof. exists (Cnf 1 [[2]]). vm_compute. discriminate. Qed.

(** c hi / p cnf 3 2 / 1 -2 0 3 / 0 *)
Definition sample : text := [99; 32; 104; 105; 10; 112; 32; 99; 110; 102; 32; 51; 32; 50; 10; 49; 32; 45; 50; 32; 48; 32; 51; 10; 48; 10].
Example C96_exact_ex : parse sample = Ok (Cnf 3 [[0; 3]; [4]]) /\ print (Cnf 3 [[0; 3]; [4]]) = [112; 32; 99; 110; 102; 32; 51; 32; 50; 10; 49; 32; 45; 50; 32; 48; 10; 51; 32; 48; 10].
Proof. vm_compute. auto. Qed.
Example C96_round_trip_ex : well_formed (Cnf 3 [[0; 3]; []; [4]]) /\ parse (print (Cnf 3 [[0; 3]; []; [4]])) = Ok (Cnf 3 [[0; 3]; []; [4]]).
Proof.
  split; [|vm_compute; reflexivity]. split; [cbn; lia|]. split; [cbn; lia|]. intros c l Hc Hl. cbn in Hc. destruct Hc as [<-|[<-|[<-|[]]]]; cbn in Hl; repeat (destruct Hl as [<-|Hl]; [vm_compute; auto|]); destruct Hl.
Qed.
Example C96_comment_ex : parse ([112; 32; 99; 110; 102; 32; 49; 32; 49] ++ 10 :: [32; 99; 33] ++ 10 :: [49; 32; 48]) = Ok (Cnf 1 [[0]]).
Proof. vm_compute. reflexivity. Qed.
