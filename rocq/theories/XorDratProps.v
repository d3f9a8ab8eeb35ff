(** C95: clausal proofs of XOR refutations. *)
From Coq Require Import List Bool Arith NArith Ndigits Lia.
From stdpp Require Import base sets list numbers.
From Verif Require Import RupModel RupProofs RupProps GaussModel XorProps IvModel XorDratModel XorDratProofs.
Open Scope nat_scope.

(** Every proof it returns ends in the empty clause and passes the RUP checker against any formula that has the clauses. *)
Theorem C95_rup : forall budget max_work n original support p, (forall c, c ∈ support -> clear c) -> (forall c, c ∈ support -> c ∈ original) -> db_in_range n original ->
  resolution_refutation_with budget max_work support = Some p -> list.last p = Some [] /\ check_refutation n original p = Some true.
Proof.
  intros budget max_work n original support p C I R H. apply refute_sound in H as (H1 & (p0 & ->) & H3); [|done].
  split; [apply last_snoc|].
  assert (db_in_range n (p0 ++ [[]])) as Rp.
  { intros c Ic l Il. destruct (H3 c l Ic Il) as (d & k & D & K & <-). apply (R d); auto. }
  destruct (C37_trace_exact n original (p0 ++ [[]]) R Rp) as (b & -> & B). f_equal. apply B. split.
  - intros l1 c l2 E. eapply contradiction_mono; [|exact (H1 _ _ _ E)]. intros d [D|D]%elem_of_app; apply elem_of_app; auto.
  - left. exists []. split; [apply elem_of_app; right; apply elem_of_app; right; left|]. intros l L. by apply elem_of_nil in L.
Qed.
(** A proof is found for every unsatisfiable set of clauses if the budgets allow, and for no other. *)
Theorem C95_complete : forall support, (forall c, c ∈ support -> clear c) -> (~ exists f, satisfies f support) ->
  exists b w p, forall budget max_work, b <= budget -> w <= max_work -> resolution_refutation_with budget max_work support = Some p.
Proof. exact refute_complete. Qed.
Lemma range_exists (db : list clause) : exists n, db_in_range n db.
Proof.
  induction db as [|c db [n IH]]; [exists 0; intros c I; by apply elem_of_nil in I|].
  assert (exists m, in_range m c) as [m Hm].
  { clear. induction c as [|l c [m IH]]; [exists 0; intros l I; by apply elem_of_nil in I|]. exists (S (lvar l + m)). intros k [->|I]%elem_of_cons; [lia|]. specialize (IH k I). lia. }
  exists (n + m). intros d [->|I]%elem_of_cons l L; [specialize (Hm l L)|specialize (IH d I l L)]; lia.
Qed.
Theorem C95_satisfiable : forall budget max_work support f, (forall c, c ∈ support -> clear c) -> satisfies f support -> resolution_refutation_with budget max_work support = None.
Proof.
  intros budget max_work support f C S. destruct (resolution_refutation_with budget max_work support) as [p|] eqn:E; [|done]. exfalso.
  destruct (range_exists support) as [n R]. destruct (C95_rup budget max_work n support support p C (fun c I => I) R E) as [_ K]. apply C37_refutation_sound in K. eauto.
Qed.
(** The clauses taken from a formula. *)
Theorem C95_support : forall budget max_work n clauses vars p, (forall c, c ∈ clauses -> clear c) -> db_in_range n clauses ->
  emit_drat_over_support_with budget max_work clauses vars = Some p -> list.last p = Some [] /\ check_refutation n clauses p = Some true.
Proof.
  intros budget max_work n clauses vars p C R H. eapply C95_rup; [| |done|exact H].
  - intros c I. apply C. by apply elem_of_list_In, List.filter_In in I as [I%elem_of_list_In _].
  - intros c I. by apply elem_of_list_In, List.filter_In in I as [I%elem_of_list_In _].
Qed.
(** A clause with a literal and its negation loses both: a satisfiable formula is "refuted", and the checker rejects the proof. *)
Theorem C95_tautology_refuted : exists clauses vars n f p, satisfies f clauses /\ db_in_range n clauses /\
  (forall budget max_work, 1 <= max_work -> emit_drat_over_support_with budget max_work clauses vars = Some p) /\ check_refutation n clauses p = Some false.
Proof.
  exists [[Lit 0 true; Lit 0 false]; [Lit 0 false]], [0], 1, (fun _ => false), [[]]. split_and!.
  - intros c I. exists (Lit 0 false). split; [|done]. apply elem_of_cons in I as [->|I]; [by right; left|]. apply elem_of_list_singleton in I as ->. left.
  - intros c I l L. assert (lvar l = 0) as ->; [|lia]. apply elem_of_cons in I as [->|I]; [|apply elem_of_list_singleton in I as ->]; set_solver.
  - intros budget [|w] L; [lia|]. reflexivity.
  - reflexivity.
Qed.

(** ** Parity gadgets *)
Lemma tb_even m i : N.testbit_nat (2 * m) (S i) = N.testbit_nat m i.
Proof. by destruct m. Qed.
Lemma tb_odd m i : N.testbit_nat (2 * m + 1) (S i) = N.testbit_nat m i.
Proof. by destruct m. Qed.
Lemma tb_even0 m : N.testbit_nat (2 * m) 0 = false.
Proof. by destruct m. Qed.
Lemma tb_odd0 m : N.testbit_nat (2 * m + 1) 0 = true.
Proof. by destruct m. Qed.
Lemma mask_exists (f : nat -> bool) vars : exists m, m < 2 ^ length vars /\ forall i v, vars !! i = Some v -> N.testbit_nat (N.of_nat m) i = f v.
Proof.
  induction vars as [|v vars (m & L & H)]; [exists 0; split; [cbn; lia|done]|].
  exists (2 * m + (if f v then 1 else 0)). split; [cbn [length]; rewrite Nat.pow_succ_r'; destruct (f v); lia|].
  replace (N.of_nat (2 * m + (if f v then 1 else 0))) with (if f v then (2 * N.of_nat m + 1)%N else (2 * N.of_nat m)%N) by (destruct (f v); lia).
  intros [|i] w; cbn [lookup list_lookup]; [intros [= <-]|intros E]; destruct (f v) eqn:Fv; rewrite ?tb_even, ?tb_odd, ?tb_even0, ?tb_odd0; auto.
Qed.
Lemma parity_ext f g l : (forall i, i ∈ l -> f i = g i) -> parity f l = parity g l.
Proof. induction l as [|i l IH]; cbn; intros H; [done|]. rewrite (H i), IH; [done| |left]. intros j J. apply H. by right. Qed.
Lemma odd_filter (f : nat -> bool) l : Nat.odd (length (List.filter f l)) = parity f l.
Proof.
  induction l as [|i l IH]; [done|]. cbn. destruct (f i); cbn [length xorb]; [|by destruct (parity f l)].
  rewrite Nat.odd_succ, <- Nat.negb_odd, IH. by destruct (parity f l).
Qed.
Lemma parity_zero f l : (forall i, i ∈ l -> f i = false) -> parity f l = false.
Proof. induction l as [|i l IH]; cbn; intros H; [done|]. rewrite (H i ltac:(left)), IH; [done|]. intros j J. apply H. by right. Qed.
Lemma parity_map f g l : parity f (map g l) = parity (fun i => f (g i)) l.
Proof. induction l as [|i l IH]; cbn; [done|]. by rewrite IH. Qed.
Lemma parity_seq (f : nat -> bool) vars : forall k h, (forall i v, vars !! i = Some v -> h (k + i) = f v) -> parity h (seq k (length vars)) = parity f vars.
Proof.
  induction vars as [|v vars IH]; intros k h H; [done|]. cbn. rewrite <- (H 0 v eq_refl), Nat.add_0_r. f_equal. apply IH.
  intros i w E. rewrite <- (H (S i) w E). f_equal. lia.
Qed.
Lemma high_bits m k i : m < 2 ^ k -> k <= i -> N.testbit_nat (N.of_nat m) i = false.
Proof.
  intros L K. rewrite <- Ntestbit_Nbit. destruct (N.eq_dec (N.of_nat m) 0) as [->|Nz]; [apply N.bits_0|]. apply N.bits_above_log2, N.log2_lt_pow2; [lia|].
  apply N.lt_le_trans with (2 ^ N.of_nat k)%N; [|apply N.pow_le_mono_r; lia]. pose proof (Nat2N.inj_pow 2 k) as P. change (N.of_nat 2) with 2%N in P. rewrite <- P. lia.
Qed.
Lemma ones_parity f vars m : length vars <= 32 -> m < 2 ^ length vars -> (forall i v, vars !! i = Some v -> N.testbit_nat (N.of_nat m) i = f v) ->
  Nat.odd (ones (N.of_nat m)) = parity f vars.
Proof.
  intros L M H. unfold ones. rewrite odd_filter. replace 32 with (length vars + (32 - length vars)) by lia. rewrite seq_app, lsum_app, Nat.add_0_l.
  rewrite (parity_zero _ (seq (length vars) _)).
  - rewrite xorb_false_r. apply parity_seq. done.
  - intros i I. apply elem_of_seq in I. apply (high_bits m (length vars)); [done|lia].
Qed.
Lemma forbid_elem vars mask l : l ∈ forbid vars mask <-> exists i v, vars !! i = Some v /\ l = Lit v (negb (N.testbit_nat mask i)).
Proof.
  unfold forbid. rewrite elem_of_list_lookup. split.
  - intros (i & H). rewrite list_lookup_imap in H. destruct (vars !! i) as [v|] eqn:E; [|done]. cbn in H. injection H as <-. eauto.
  - intros (i & v & E & ->). exists i. rewrite list_lookup_imap, E. done.
Qed.
Lemma wrong_eq rhs mask : wrong_parity rhs mask = xorb (Nat.odd (ones mask)) rhs.
Proof. reflexivity. Qed.
Lemma gadget_elem e c : c ∈ gadget_clauses e <-> exists m, m < 2 ^ length (xvars e) /\ xorb (Nat.odd (ones (N.of_nat m))) (xrhs e) = true /\ c = forbid (xvars e) (N.of_nat m).
Proof.
  unfold gadget_clauses. rewrite elem_of_list_In, List.in_map_iff. split.
  - intros (mask & <- & I). apply List.filter_In in I as [I W]. apply List.in_map_iff in I as (m & <- & I). apply List.in_seq in I. exists m. split; [apply I|]. split; [|reflexivity]. rewrite wrong_eq in W. exact W.
  - intros (m & L & W & ->). exists (N.of_nat m). split; [reflexivity|]. apply List.filter_In. split; [|rewrite wrong_eq; exact W]. apply List.in_map, List.in_seq. split; [apply Nat.le_0_l|exact L].
Qed.
(** The gadget of an equation says what the equation says. *)
Theorem C95_gadget : forall e f, length (xvars e) < 32 -> satisfies f (gadget_clauses e) <-> parity f (xvars e) = xrhs e.
Proof.
  intros e f L. split.
  - intros S. destruct (mask_exists f (xvars e)) as (m & M & H). pose proof (ones_parity f (xvars e) m ltac:(lia) M H) as O.
    destruct (bool_dec (parity f (xvars e)) (xrhs e)) as [E|N]; [done|]. exfalso.
    destruct (S (forbid (xvars e) (N.of_nat m))) as (l & I & T).
    + apply gadget_elem. exists m. split; [exact M|]. split; [|reflexivity]. rewrite O. destruct (parity f (xvars e)), (xrhs e); done.
    + apply forbid_elem in I as (i & v & E & ->). unfold lit_true in T. cbn in T. rewrite (H i v E) in T. by destruct (f v).
  - intros P c I. apply gadget_elem in I as (m & M & W & ->).
    destruct (List.Exists_dec (lit_true f) (forbid (xvars e) (N.of_nat m)) (fun l => bool_dec (f (lvar l)) (lpos l))) as [E|N].
    + apply List.Exists_exists in E as (l & I & T). exists l. split; [by apply elem_of_list_In|done].
    + exfalso. rewrite (ones_parity f (xvars e)) in W; [|lia|done|].
      * rewrite P in W. by destruct (xrhs e).
      * intros i v E. assert (~ lit_true f (Lit v (negb (N.testbit_nat (N.of_nat m) i)))) as K.
        { intros T. apply N, List.Exists_exists. eexists. split; [|exact T]. apply elem_of_list_In, forbid_elem. eauto. }
        unfold lit_true in K. cbn in K. destruct (f v), (N.testbit_nat (N.of_nat m) i); cbn in K; congruence.
Qed.
Lemma gadget_clear e c : NoDup (xvars e) -> c ∈ gadget_clauses e -> clear c.
Proof.
  intros N (m & _ & _ & ->)%gadget_elem l A B. apply forbid_elem in A as (i & v & E & ->), B as (j & w & F & Q). injection Q as <- Q.
  assert (i = j) as <- by (eapply NoDup_lookup; eauto). destruct (N.testbit_nat (N.of_nat m) i); done.
Qed.

(** ** From the refutation to the proof *)
Lemma refutation_sum_sub eqs n idxs : forall st r, refutation_sum eqs n st idxs = Some r ->
  exists es, gadgets_at eqs idxs = Some (concat (map gadget_clauses es)) /\ (forall pre, refutation_sum (pre ++ es) n st (seq (length pre) (length es)) = Some r) /\ (forall e, e ∈ es -> exists i, i ∈ idxs /\ eqs !! i = Some e) /\ length es = length idxs.
Proof.
  induction idxs as [|i idxs IH]; intros st r; cbn [refutation_sum].
  { intros [= <-]. exists []. split_and!; [done|done| |done]. intros e I. by apply elem_of_nil in I. }
  destruct (eqs !! i) as [e|] eqn:E; [|done]. intros (es & H1 & H2 & H3 & H4)%IH. exists (e :: es). split_and!.
  - unfold gadgets_at in *. cbn. rewrite E. cbn. destruct (mapM _ idxs) as [gs|]; [|done]. cbn in *. injection H1 as ->. done.
  - intros pre. cbn [length seq refutation_sum]. rewrite lookup_app_r, Nat.sub_diag by lia. cbn. specialize (H2 (pre ++ [e])). rewrite <- app_assoc, app_length in H2. cbn in H2. by rewrite Nat.add_comm in H2.
  - intros x [->|I]%elem_of_cons; [exists i; split; [left|done]|]. destruct (H3 x I) as (j & J & K). exists j. split; [by right|done].
  - cbn. lia.
Qed.
Theorem C95_xor : forall eqs n idxs, is_refutation eqs n idxs = true ->
  (forall e, e ∈ eqs -> NoDup (xvars e) /\ length (xvars e) < 32 /\ forall v, v ∈ xvars e -> v < n) ->
  exists b w p, forall budget max_work, b <= budget -> w <= max_work ->
    emit_xor_drat_with budget max_work eqs idxs = Some (Some p) /\ list.last p = Some [] /\ check_refutation n (concat (map gadget_clauses eqs)) p = Some true.
Proof.
  intros eqs n idxs H W. unfold is_refutation in H. destruct idxs as [|i0 l0]; [done|]. remember (i0 :: l0) as idxs eqn:Ei.
  destruct (refutation_sum eqs n (0%N, false) idxs) as [[lhs rhs]|] eqn:R; [|done]. apply andb_true_iff in H as [Hl ->].
  apply refutation_sum_sub in R as (es & G & R & S & Len).
  assert (forall e, e ∈ es -> e ∈ eqs) as Sub by (intros e I; destruct (S e I) as (i & _ & E); by eapply elem_of_list_lookup_2).
  set (support := concat (map gadget_clauses es)) in *.
  assert (forall es c, c ∈ concat (map gadget_clauses es) <-> exists e, e ∈ es /\ c ∈ gadget_clauses e) as El.
  { clear. intros es c. rewrite elem_of_list_In, List.in_concat. split.
    - intros (g & A & B). apply List.in_map_iff in A as (e & <- & A). exists e. by rewrite !elem_of_list_In.
    - intros (e & A & B). exists (gadget_clauses e). rewrite <- !elem_of_list_In. split; [|done]. by apply elem_of_list_In, List.in_map, elem_of_list_In. }
  assert (forall c, c ∈ support -> clear c) as C.
  { intros c (e & A & B)%El. eapply gadget_clear; [|exact B]. by apply W, Sub. }
  assert (forall c, c ∈ support -> c ∈ concat (map gadget_clauses eqs)) as Inc.
  { intros c (e & A & B)%El. apply El. eauto. }
  assert (db_in_range n (concat (map gadget_clauses eqs))) as Rng.
  { intros c (e & A & B)%El l L. apply gadget_elem in B as (m & _ & _ & ->). apply forbid_elem in L as (i & v & E & ->). cbn. eapply W; [exact A|]. by eapply elem_of_list_lookup_2. }
  destruct (C95_complete support C) as (b & w & p & P).
  { intros [f Sf]. assert (is_refutation es n (seq 0 (length es)) = true) as Q.
    { unfold is_refutation. specialize (R []). cbn [app length] in R. rewrite R. destruct es as [|e es]; [subst; done|]. cbn [length seq]. by rewrite Hl. }
    apply (C71_refutation_sound _ _ _ (map f (seq 0 n))) in Q; [|by rewrite List.map_length, seq_length].
    rewrite <- not_true_iff_false in Q. apply Q. apply satisfies_iff. intros e I. unfold holds.
    destruct (W e (Sub e I)) as (_ & K1 & K2). rewrite <- (proj1 (C95_gadget e f K1)).
    - apply parity_ext. intros v V. specialize (K2 v V). unfold val. change (map f (seq 0 n)) with (f <$> seq 0 n). rewrite list_lookup_fmap, lookup_seq_lt by lia. done.
    - intros c J. apply Sf, El. eauto. }
  exists b, w, p. intros budget max_work L1 L2. specialize (P budget max_work L1 L2). split.
  - unfold emit_xor_drat_with. rewrite G. cbn. by rewrite P.
  - eapply C95_rup; eauto.
Qed.

(** x0+x1=0, x1+x2=0, x0+x2=1. *)
Definition ex_eqs := [XorEq [0; 1] false; XorEq [1; 2] false; XorEq [0; 2] true].
Example C95_xor_ex : is_refutation ex_eqs 3 [0; 1; 2] = true /\ emit_xor_drat_with 10 20 ex_eqs [0; 1; 2] = Some (Some [[Lit 1 false; Lit 2 false]; [Lit 1 true; Lit 2 true]; [Lit 2 false]; [Lit 2 true]; []]).
Proof. vm_compute. done. Qed.
Example C95_complete_ex : (forall c, c ∈ [[Lit 0 true]; [Lit 0 false]] -> clear c) /\ resolution_refutation_with 1 1 [[Lit 0 true]; [Lit 0 false]] = Some [[]].
Proof. split; [|reflexivity]. intros c [->|I]%elem_of_cons l A B; [|apply elem_of_list_singleton in I as ->]; apply elem_of_list_singleton in A as ->; apply elem_of_list_singleton in B; done. Qed.
Example C95_gadget_ex : gadget_clauses (XorEq [0; 1] true) = [[Lit 0 true; Lit 1 true]; [Lit 0 false; Lit 1 false]].
Proof. reflexivity. Qed.
