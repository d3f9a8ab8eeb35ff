(** C97: emitted proofs check, and checked proofs are sound. *)
From Coq Require Import List Bool ZArith NArith Lia Sorting.Permutation.
From stdpp Require Import list gmap.
From Verif Require Import DimacsModel DimacsProofs RupModel RupProofs RupProps PrModel PrProofs PrIndex PrProps LratModel LratProofs LratText.
Open Scope N_scope.

(** An accepted LRAT proof, whatever its text, means that the clauses have no model. *)
Lemma delete_ids_sat f toks : forall m, db_sat f m -> db_sat f (delete_ids m toks).
Proof.
  unfold delete_ids. induction toks as [|t toks IH]; intros m S; cbn [fold_left]; [done|]. apply IH. destruct (parse_usize t) as [d|]; [|done]. destruct (d =? 0); [done|].
  intros id c H. apply lookup_delete_Some in H as [_ H]. eauto.
Qed.
Theorem C97_lrat_sound n original t : check_lrat n original t = Some true -> ~ exists f, satisfies f original.
Proof.
  unfold check_lrat. intros H [f Sat]. assert (S : db_sat f (list_to_map (numbered 1 original))).
  { intros id c L. apply elem_of_list_to_map_2 in L. apply Sat. clear - L. revert L. generalize 1. induction original as [|d original IH]; intros i L; [by apply elem_of_nil in L|].
    apply elem_of_cons in L as [[= _ ->]|L]; [left|right; eauto]. }
  clear Sat. revert H S. generalize (list_to_map (numbered 1 original) : gmap N clause). generalize (lines t). clear. induction l as [|l ls IH]; intros m H S; cbn [check_lines] in H; [done|].
  destruct (skipped (trim l)); [eauto|]. destruct (split_whitespace (trim l)) as [|id_tok rest]; [eauto|]. destruct (parse_usize id_tok) as [id|]; [|done].
  assert (K : match until_zero rest with
    | None => Some false
    | Some (ns, _, rest) => match until_zero rest with
        | None => Some false
        | Some (hs, _, _) => let c := map lit_of_int ns in
            match verify_rup_step n m c (map (fun h => Z.to_N (h mod 2 ^ 64)%Z) hs) with None => None | Some false => Some false | Some true => match c with [] => Some true | _ => check_lines n (<[id := c]> m) ls end end
        end
    end = Some true -> False).
  { clear H. destruct (until_zero rest) as [[[ns z] rest']|]; [|done]. destruct (until_zero rest') as [[[hs z'] ?]|]; [|done]. cbv zeta. destruct (verify_rup_step n m (map lit_of_int ns) _) as [[]|] eqn:V; [|done|done].
    pose proof (verify_sound f n m _ _ S V) as T. destruct (map lit_of_int ns) as [|k c]; [destruct T as (k & Hk & _); by apply elem_of_nil in Hk|].
    intros H. apply (IH _ H). intros id' d L. apply lookup_insert_Some in L as [[_ <-]|[_ L]]; [done|eauto]. }
  destruct rest as [|[|x [|y w]] toks]; try (by apply K); (destruct x as [|p]; [by apply K|]; repeat (destruct p as [p|p|]; try (by apply K))). 
  eapply IH; [exact H|]. by apply delete_ids_sat.
Qed.

(** ** Databases with the same clauses *)
Definition same_db (db db' : list clause) : Prop := (forall c, c ∈ db -> exists d, d ∈ db' /\ same_lits c d) /\ (forall d, d ∈ db' -> exists c, c ∈ db /\ same_lits d c).
Lemma derived_same db db' (s s' : RupModel.lit -> Prop) : (forall c, c ∈ db -> exists d, d ∈ db' /\ same_lits c d) -> (forall l, s l -> s' l) -> forall l, derived db s l -> derived db' s' l.
Proof.
  intros Sub Ss l H. induction H as [l Hl|c l Hc Hl Hk IH]; [apply d_start; auto|]. destruct (Sub c Hc) as (d & Hd & E). apply (d_unit _ _ d); [done|by apply E|]. intros k Kd Nk. apply IH; [by apply E|done].
Qed.
Lemma contradiction_same db db' (s s' : RupModel.lit -> Prop) : (forall c, c ∈ db -> exists d, d ∈ db' /\ same_lits c d) -> (forall l, s l -> s' l) -> contradiction db s -> contradiction db' s'.
Proof.
  intros Sub Ss [(c & Hc & H)|(l & H1 & H2)].
  - left. destruct (Sub c Hc) as (d & Hd & E). exists d. split; [done|]. intros l Hl. eapply derived_same; [done|done|]. apply H. by apply E.
  - right. exists l. split; eapply derived_same; done.
Qed.
Lemma is_rup_same n db db' c c' : db_in_range n db -> db_in_range n db' -> in_range n c -> in_range n c' -> same_db db db' -> same_lits c c' -> is_rup n db c = is_rup n db' c'.
Proof.
  intros R R' Rc Rc' [E1 E2] E. destruct (is_rup_ok n db c R Rc) as (b & -> & B). destruct (is_rup_ok n db' c' R' Rc') as (b' & -> & B'). f_equal.
  assert (contradiction db (neg_of c) <-> contradiction db' (neg_of c')) as Q.
  { split; apply contradiction_same; try done; intros l; unfold neg_of; by rewrite (E (negated l)). }
  destruct b, b'; try done; [symmetry|]; [apply B', Q, B|apply B, Q, B']; done.
Qed.
Lemma keys_same db db' : Permutation (map clause_key db) (map clause_key db') -> same_db db db'.
Proof.
  intros P. assert (K : forall db db' : list clause, Permutation (map clause_key db) (map clause_key db') -> forall c, c ∈ db -> exists d, d ∈ db' /\ same_lits c d).
  { clear. intros db db' P c Hc. assert (H : clause_key c ∈ map clause_key db') by (rewrite <- P; apply elem_of_list_In, in_map; by apply elem_of_list_In).
    apply elem_of_list_In, in_map_iff in H as (d & E & Hd). exists d. split; [by apply elem_of_list_In|]. apply key_iff. done. }
  split; [by apply K|]. apply K. by symmetry.
Qed.
Lemma position_some k db i : position k db = Some i -> exists d, db !! i = Some d /\ clause_key d = k.
Proof.
  revert i. induction db as [|d db IH]; intros i; cbn [position]; [done|]. case_bool_decide as B; [intros [= <-]; exists d; done|].
  destruct (position k db) as [j|]; [|done]. intros [= <-]. cbn. eauto.
Qed.
Lemma position_none k db : position k db = None -> k ∉ map clause_key db.
Proof.
  induction db as [|d db IH]; cbn [position map]; [intros _ H; by apply elem_of_nil in H|]. case_bool_decide as B; [done|]. destruct (position k db); [done|]. intros _ [->|H]%elem_of_cons; [done|]. by apply IH.
Qed.
Lemma swap_remove_perm i db d : db !! i = Some d -> Permutation db (d :: swap_remove i db).
Proof.
  intros L. unfold swap_remove. destruct (list.last db) as [e|] eqn:La.
  2: { apply last_None in La as ->. by rewrite lookup_nil in L. }
  apply last_Some in La as [db0 ->]. rewrite app_length. cbn [length]. replace (length db0 + 1 - 1)%nat with (length db0) by lia.
  apply lookup_app_Some in L as [L|[G L]].
  - assert (Li : (i < length db0)%nat) by (by eapply lookup_lt_Some). rewrite insert_app_l by done. rewrite take_app_alt by (by rewrite insert_length).
    rewrite (insert_take_drop db0 i e Li). rewrite <- (take_drop_middle db0 i d L) at 1. rewrite <- app_assoc. cbn [app]. rewrite <- (Permutation_middle (take i db0)). constructor.
    apply Permutation_app_head. symmetry. apply Permutation_cons_append.
  - apply list_lookup_singleton_Some in L as [E <-]. assert (i = length db0) as -> by lia. rewrite insert_app_r_alt by lia. rewrite Nat.sub_diag. cbn. rewrite take_app_alt by done. symmetry. apply Permutation_cons_append.
Qed.
Lemma delete_keys c db : if decide (clause_key c ∈ map clause_key db) then Permutation (map clause_key db) (clause_key c :: map clause_key (delete_clause c db)) else delete_clause c db = db.
Proof.
  unfold delete_clause. destruct (position (clause_key c) db) as [i|] eqn:P.
  - destruct (position_some _ _ _ P) as (d & L & K). rewrite decide_True.
    + rewrite (swap_remove_perm i db d L) at 1. cbn. by rewrite K.
    + rewrite <- K. apply elem_of_list_In, in_map. apply elem_of_list_In. by eapply elem_of_list_lookup_2.
  - apply position_none in P. by rewrite decide_False.
Qed.
Lemma remove_last_ok k (db : list (N * clause)) : match remove_last k db with
  | Some (did, db') => exists d, (did, d) ∈ db /\ clause_key d = k /\ Permutation db ((did, d) :: db')
  | None => k ∉ map (fun x => clause_key (snd x)) db
  end.
Proof.
  induction db as [|[id d] db IH]; cbn [remove_last]; [intros H; by apply elem_of_nil in H|]. destruct (remove_last k db) as [[did db']|].
  - destruct IH as (e & H1 & H2 & H3). exists e. split; [by right|]. split; [done|]. rewrite H3. apply perm_swap.
  - case_bool_decide as B.
    + exists d. split; [left|]. done.
    + cbn [map snd]. intros [->|H]%elem_of_cons; done.
Qed.

(** ** DRAT, LRAT and the checker agree *)
Definition rup_only (s : step) : Prop := match s with SPr _ _ => False | _ => True end.
Definition keys_of (db : list (N * clause)) : list (list nat) := map clause_key (map snd db).
Record lrat_state (n : nat) (next : N) (db : list (N * clause)) (m : gmap N clause) : Prop := {
  ls_unique : unique db;
  ls_rep : forall id c, (id, c) ∈ db <-> m !! id = Some c;
  ls_range : db_in_range n (map snd db);
  ls_ids : forall id c, (id, c) ∈ db -> 0 < id < next;
  ls_next : 0 < next }.
Lemma state_add n next db m c : lrat_state n next db m -> in_range n c -> lrat_state n (next + 1) (db ++ [(next, c)]) (<[next := c]> m).
Proof.
  intros [A B C D P] R. assert (New : forall d, (next, d) ∉ db) by (intros d H; apply D in H; lia). constructor.
  - unfold unique. rewrite map_app. apply NoDup_app. split; [done|]. split; [|apply NoDup_singleton]. intros x Hx Hx'. cbn in Hx'. apply elem_of_list_singleton in Hx' as ->.
    apply elem_of_list_In, in_map_iff in Hx as ([i d] & E & Hx). cbn in E. subst i. apply elem_of_list_In in Hx. by apply New in Hx.
  - intros id d. rewrite elem_of_app, elem_of_list_singleton, B, lookup_insert_Some. destruct (decide (id = next)) as [->|N].
    + split; [intros [H|[= ->]]; [|by left]|intros [[_ ->]|[? _]]; [by right|done]]. exfalso. apply (New d). by apply B.
    + split; [intros [H|[= -> _]]; [right; done|done]|intros [[-> _]|[_ H]]; [done|by left]].
  - rewrite map_app. intros d Hd. apply elem_of_app in Hd as [Hd|Hd]; [by apply C|]. apply elem_of_list_singleton in Hd as ->. done.
  - intros id d H. apply elem_of_app in H as [H|H]; [apply D in H; lia|]. apply elem_of_list_singleton in H. injection H as -> ->.
    lia.
  - lia.
Qed.
Lemma state_remove n next db m did d db' : lrat_state n next db m -> Permutation db ((did, d) :: db') -> lrat_state n next db' (base.delete did m).
Proof.
  intros [A B C D P] Pm. assert (Sub : forall x, x ∈ db' -> x ∈ db) by (intros x Hx; rewrite Pm; by right).
  assert (Nd : NoDup (did :: map fst db')). { unfold unique in A. rewrite Pm in A. exact A. } apply NoDup_cons in Nd as [N1 N2].
  assert (Nd : forall e, (did, e) ∉ db') by (intros e H; apply N1, elem_of_list_In, in_map_iff; exists (did, e); split; [done|by apply elem_of_list_In]).
  constructor; try done.
  - intros id c. rewrite lookup_delete_Some, <- B. split.
    + intros H. split; [intros <-; by apply Nd in H|auto].
    + intros [N H]. rewrite Pm in H. apply elem_of_cons in H as [[= -> _]|H]; done.
  - intros c Hc. apply C. apply elem_of_list_In, in_map_iff in Hc as (x & <- & Hx). apply elem_of_list_In in Hx. apply elem_of_list_In, in_map, elem_of_list_In. auto.
  - intros id c H. eauto.
Qed.
Lemma drat_check n steps : Forall rup_only steps -> forall i db out, (exists t, drat_from n i db out steps = Some (inr t)) <-> check_pr_refutation n db steps = Some true.
Proof.
  induction 1 as [|s steps R F IH]; intros i db out; cbn [drat_from check_pr_refutation].
  - destruct (is_rup n db []) as [[]|]; [split; eauto|split; [intros [t ?]|]; done..].
  - destruct s as [c|c w|c]; [|done|apply IH]. destruct (is_rup n db c) as [[]|]; [apply IH|split; [intros [t ?]|]; done..].
Qed.
Lemma agree_ok n steps : Forall (step_in_range n) steps -> forall i next db m dbp out outd, lrat_state n next db m -> db_in_range n dbp -> Permutation (map clause_key dbp) (keys_of db) ->
  match drat_from n i dbp outd steps, lrat_from n i next db out steps with
  | Some (inl e), Some (inl e') => e = e' | Some (inr _), Some (inr _) => True | _, _ => False end.
Proof.
  induction 1 as [|s steps R F IH]; intros i next db m dbp out outd St Rp Pm; cbn [drat_from lrat_from].
  - assert (Rn : in_range n []) by (intros l H; by apply elem_of_nil in H). destruct (rup_hints_ok n db m (ls_unique _ _ _ _ St) (ls_rep _ _ _ _ St) (ls_range _ _ _ _ St) [] Rn) as (r & -> & E & _).
    rewrite (is_rup_same n dbp (map snd db) [] [] Rp (ls_range _ _ _ _ St) Rn Rn (keys_same _ _ Pm) (fun l => iff_refl _)), E. by destruct r.
  - destruct s as [c|c w|c]; cbn in R.
    + destruct (rup_hints_ok n db m (ls_unique _ _ _ _ St) (ls_rep _ _ _ _ St) (ls_range _ _ _ _ St) c R) as (r & -> & E & _).
      rewrite (is_rup_same n dbp (map snd db) c c Rp (ls_range _ _ _ _ St) R R (keys_same _ _ Pm) (fun l => iff_refl _)), E. destruct r as [hints|]; [|done].
      eapply IH; [exact (state_add n next db m c St R)| |].
      * intros d Hd. apply elem_of_app in Hd as [Hd|Hd]; [auto|]. apply elem_of_list_singleton in Hd as ->. done.
      * unfold keys_of in *. rewrite !map_app. cbn. by rewrite Pm.
    + done.
    + pose proof (remove_last_ok (clause_key c) db) as Q. pose proof (delete_keys c dbp) as K. assert (Rd : db_in_range n (delete_clause c dbp)) by (intros d Hd; apply Rp, (delete_sub c dbp d Hd)).
      destruct (remove_last (clause_key c) db) as [[did db']|].
      * destruct Q as (d & H1 & H2 & H3). rewrite decide_True in K.
        2: { rewrite Pm, <- H2. unfold keys_of. apply elem_of_list_In, in_map. change d with (snd (did, d)). apply in_map. by apply elem_of_list_In. }
        eapply IH; [exact (state_remove n next db m did d db' St H3)|done|]. unfold keys_of in *. rewrite H3 in Pm. cbn [map snd] in Pm. rewrite K, H2 in Pm. by apply Permutation_cons_inv in Pm.
      * rewrite decide_False in K. 2: { rewrite Pm. unfold keys_of. by rewrite map_map. } rewrite K. eapply IH; [exact St|done|done].
Qed.
Lemma numbered_elem cs : forall i id c, (id, c) ∈ numbered i cs -> i <= id < i + N.of_nat (length cs) /\ c ∈ cs.
Proof.
  induction cs as [|d cs IH]; intros i id c H; [by apply elem_of_nil in H|]. cbn [numbered length] in *. apply elem_of_cons in H as [[= -> ->]|H]; [split; [lia|left]|].
  apply IH in H as [H1 H2]. split; [lia|by right].
Qed.
Lemma numbered_snd cs : forall i, map snd (numbered i cs) = cs.
Proof. induction cs as [|c cs IH]; intros i; [done|]. cbn. by rewrite IH. Qed.
Lemma numbered_unique cs : forall i, unique (numbered i cs).
Proof.
  unfold unique. induction cs as [|c cs IH]; intros i; cbn; [constructor|]. apply NoDup_cons. split; [|apply IH]. intros H. apply elem_of_list_In, in_map_iff in H as ([j d] & E & H).
  apply elem_of_list_In, numbered_elem in H. cbn in E. lia.
Qed.
Lemma start_state n original : db_in_range n original -> lrat_state n (N.of_nat (length original) + 1) (numbered 1 original) (list_to_map (numbered 1 original)).
Proof.
  intros R. constructor.
  - apply numbered_unique.
  - intros id c. apply elem_of_list_to_map. apply numbered_unique.
  - by rewrite numbered_snd.
  - intros id c H. apply numbered_elem in H. lia.
  - lia.
Qed.
(** emit_drat and emit_lrat succeed and fail together, with the same error. *)
Theorem C97_agree n original steps : db_in_range n original -> Forall (step_in_range n) steps ->
  match emit_drat n original steps, emit_lrat n original steps with
  | Some (inl e), Some (inl e') => e = e' | Some (inr _), Some (inr _) => True | _, _ => False end.
Proof. intros R F. unfold emit_drat, emit_lrat. eapply agree_ok; [done|by apply start_state|done|]. unfold keys_of. by rewrite numbered_snd. Qed.
(** They succeed exactly on what the RUP checker accepts; a step with a witness is refused. *)
Theorem C97_emit_exact n original steps : db_in_range n original -> Forall (step_in_range n) steps -> Forall rup_only steps ->
  ((exists t, emit_drat n original steps = Some (inr t)) <-> check_pr_refutation n original steps = Some true) /\
  ((exists t, emit_lrat n original steps = Some (inr t)) <-> check_pr_refutation n original steps = Some true).
Proof.
  intros R F O. pose proof (C97_agree n original steps R F) as A. pose proof (drat_check n steps O 0 original []) as D. fold (emit_drat n original steps) in D. split; [done|]. rewrite <- D.
  destruct (emit_drat n original steps) as [[e|t]|], (emit_lrat n original steps) as [[e'|t']|]; try done; (split; intros [x ?]; [try done; eauto|try done; eauto]).
Qed.

(** ** Emitted LRAT is accepted *)
Lemma in_small n c : N.of_nat n <= 2 ^ 31 -> in_range n c -> small c.
Proof. intros L R l Hl. specialize (R l Hl). lia. Qed.
Lemma text_app a b : text_lines (a ++ b) = text_lines a ++ text_lines b.
Proof. unfold text_lines. by rewrite map_app, concat_app. Qed.
Lemma add_nl id c hints : no_nl (add_text id c hints).
Proof. unfold add_text, no_nl. rewrite !Forall_app. repeat split; try apply dec_nl; try apply push_nl; try apply spaced_nl; by constructor. Qed.
Lemma del_nl id did : no_nl (del_text id did).
Proof. unfold del_text, no_nl. rewrite !Forall_app. repeat split; try apply dec_nl; repeat (constructor; try done). Qed.
Lemma add_line_eq id c hints : add_line id c hints = add_text id c hints ++ [10].
Proof. unfold add_line, add_text. rewrite <- !app_assoc. done. Qed.
Lemma del_line_eq id did : delete_line id did = del_text id did ++ [10].
Proof. unfold delete_line, del_text. rewrite <- !app_assoc. done. Qed.
Lemma hints_range n next db m c hints : lrat_state n next db m -> next < 2 ^ 63 -> verify_rup_step n m c hints = Some true -> 
  Forall (fun h => 0 < h < 2 ^ 63) hints \/ assume_neg (replicate n None) c = Some None.
Proof.
  intros St L V. unfold verify_rup_step in V. destruct (assume_neg (replicate n None) c) as [[a|]|]; [|by right|done]. left. apply Forall_forall. intros h Hh.
  destruct (replay_ids m hints a V h Hh) as [d Hd]. apply (ls_rep _ _ _ _ St) in Hd. apply (ls_ids _ _ _ _ St) in Hd. lia.
Qed.
Lemma trivial_hints n db c : in_range n c -> assume_neg (replicate n None) c = Some None -> rup_hints n db c = Some (Some []).
Proof.
  intros R A. unfold rup_hints. pose proof (assume_trail_ok n db c [] _ [] (empty_ok n db)) as P. cbn [t_assign] in P. rewrite A in P. rewrite P; [done|]. intros i l o H. by rewrite lookup_nil in H.
Qed.
Lemma lrat_accepted n steps : N.of_nat n <= 2 ^ 31 -> Forall (step_in_range n) steps -> forall i next db m out t, lrat_state n next db m -> next + N.of_nat (length steps) < 2 ^ 63 ->
  lrat_from n i next db out steps = Some (inr t) -> exists ls, t = out ++ text_lines ls /\ Forall no_nl ls /\ check_lines n m (ls ++ [[]]) = Some true.
Proof.
  intros Ln. induction 1 as [|s steps R F IH]; intros i next db m out t St L; cbn [lrat_from length].
  - assert (Rn : in_range n []) by (intros l H; by apply elem_of_nil in H). destruct (rup_hints_ok n db m (ls_unique _ _ _ _ St) (ls_rep _ _ _ _ St) (ls_range _ _ _ _ St) [] Rn) as (r & -> & _ & V).
    destruct r as [hints|]; [|done]. intros [= <-]. specialize (V hints eq_refl). exists [add_text next [] hints]. split; [|split].
    + unfold text_lines, add_text. cbn [map concat]. rewrite app_nil_r, <- !app_assoc. done.
    + constructor; [apply add_nl|constructor].
    + cbn [app]. destruct (hints_range n next db m [] hints St ltac:(lia) V) as [Fh|C]; [|done]. rewrite (check_add n m next [] hints [[]]); [done|intros l H; by apply elem_of_nil in H|lia|done|done].
  - cbn [length] in L. destruct s as [c|c w|c]; [| done|].
    + cbn in R. destruct (rup_hints_ok n db m (ls_unique _ _ _ _ St) (ls_rep _ _ _ _ St) (ls_range _ _ _ _ St) c R) as (r & Er & _ & V). rewrite Er. destruct r as [hints|]; [|done]. specialize (V hints eq_refl).
      assert (Fh : Forall (fun h => 0 < h < 2 ^ 63) hints).
      { destruct (hints_range n next db m c hints St ltac:(lia) V) as [?|A]; [done|]. rewrite (trivial_hints n db c R A) in Er. injection Er as <-. constructor. }
      intros H. apply (IH (S i) (next + 1) _ (<[next := c]> m)) in H as (ls & -> & N & C); [|by apply state_add|lia]. exists (add_text next c hints :: ls). split; [|split].
      * rewrite add_line_eq. change (text_lines (add_text next c hints :: ls)) with ((add_text next c hints ++ [10]) ++ text_lines ls). by rewrite <- !app_assoc.
      * constructor; [apply add_nl|done].
      * cbn [app]. rewrite (check_add n m next c hints); [|by eapply in_small|lia|done|done]. destruct c; done.
    + pose proof (remove_last_ok (clause_key c) db) as Q. destruct (remove_last (clause_key c) db) as [[did db']|].
      * destruct Q as (d & H1 & H2 & H3). intros H. apply (IH (S i) next _ (base.delete did m)) in H as (ls & -> & N & C); [|by eapply state_remove|lia]. exists (del_text (next - 1) did :: ls). split; [|split].
        -- rewrite del_line_eq. change (text_lines (del_text (next - 1) did :: ls)) with ((del_text (next - 1) did ++ [10]) ++ text_lines ls). by rewrite <- !app_assoc.
        -- constructor; [apply del_nl|done].
        -- cbn [app]. pose proof (ls_ids _ _ _ _ St did d H1). rewrite check_delete by lia. done.
      * intros H. apply (IH (S i) next db m) in H; [done|done|lia].
Qed.
Theorem C97_lrat_accepted n original steps t : N.of_nat n <= 2 ^ 31 -> N.of_nat (length original) + N.of_nat (length steps) < 2 ^ 63 - 1 -> db_in_range n original -> Forall (step_in_range n) steps ->
  emit_lrat n original steps = Some (inr t) -> check_lrat n original t = Some true.
Proof.
  intros Ln L R F H. unfold emit_lrat in H. destruct (lrat_accepted n steps Ln F 0 _ _ _ [] t (start_state n original R) ltac:(lia) H) as (ls & -> & N & C).
  unfold check_lrat. cbn [app]. rewrite lines_text by done. exact C.
Qed.

(** ** DRAT and DPR text reads back *)
Definition printable (n : nat) (s : step) : Prop := match s with SRup c | SDelete c => in_range n c | SPr c w => in_range n c /\ witness_in_range n w end.
Lemma parse_blank ls : parse_lines (ls ++ [[]]) = parse_lines ls.
Proof. induction ls as [|l ls IH]; [done|]. cbn [app parse_lines]. destruct (skipped (trim l)); [done|]. destruct (parse_line (trim l)); [|done]. by rewrite IH. Qed.
Lemma push_line c : trim (push_clause c) = push_clause c /\ skipped (push_clause c) = false.
Proof. destruct (push_lead c) as (x & r & r' & E & L & E'). rewrite E in E' |- *. eapply lead_line; [|exact E']. unfold lead. tauto. Qed.
Lemma two_line c w : trim (push_clause c ++ [32] ++ push_clause w) = push_clause c ++ [32] ++ push_clause w /\ skipped (push_clause c ++ [32] ++ push_clause w) = false.
Proof.
  destruct (push_lead c) as (x & r & r' & E & L & _). destruct (push_lead w) as (_ & _ & q & _ & _ & E'). rewrite E. cbn [app]. eapply (lead_line x _ (x :: r ++ 32 :: q)); [unfold lead; tauto|].
  rewrite E'. cbn. rewrite <- app_assoc. done.
Qed.
Lemma delete_line_trim c : trim ([100; 32] ++ push_clause c) = [100; 32] ++ push_clause c /\ skipped ([100; 32] ++ push_clause c) = false.
Proof. destruct (push_lead c) as (_ & _ & q & _ & _ & E'). eapply (lead_line 100 _ (100 :: 32 :: q)); [unfold lead; tauto|]. rewrite E'. done. Qed.
Lemma two_nl c w : no_nl (push_clause c ++ [32] ++ push_clause w).
Proof. unfold no_nl. rewrite !Forall_app. split; [apply push_nl|]. split; [by constructor|apply push_nl]. Qed.
Lemma dell_nl c : no_nl ([100; 32] ++ push_clause c).
Proof. unfold no_nl. rewrite Forall_app. split; [repeat (constructor; try done)|apply push_nl]. Qed.
Lemma text_cons l ls : text_lines (l :: ls) = l ++ [10] ++ text_lines ls.
Proof. unfold text_lines. cbn. rewrite <- app_assoc. done. Qed.
Lemma drat_text n steps : N.of_nat n <= 2 ^ 31 -> Forall (printable n) steps -> forall i db out t, drat_from n i db out steps = Some (inr t) ->
  exists ls, t = out ++ text_lines ls /\ Forall no_nl ls /\ parse_lines ls = Some (steps ++ [SRup []]).
Proof.
  intros Ln. induction 1 as [|s steps R F IH]; intros i db out t; cbn [drat_from].
  - destruct (is_rup n db []) as [[]|]; try done. intros [= <-]. exists [push_clause []]. split; [done|]. split; [constructor; [apply push_nl|constructor]|done].
  - destruct s as [c|c w|c]; [|done|]; cbn in R.
    + destruct (is_rup n db c) as [[]|]; try done. intros H. apply IH in H as (ls & -> & N & P). exists (push_clause c :: ls). split; [rewrite text_cons, <- !app_assoc; done|].
      split; [constructor; [apply push_nl|done]|]. cbn [parse_lines app]. destruct (push_line c) as [-> ->]. rewrite parse_rup by (by eapply in_small). by rewrite P.
    + intros H. apply IH in H as (ls & -> & N & P). exists (([100; 32] ++ push_clause c) :: ls). split; [rewrite text_cons, <- !app_assoc; done|].
      split; [constructor; [apply dell_nl|done]|]. cbn [parse_lines]. destruct (delete_line_trim c) as [-> ->]. rewrite parse_delete by (by eapply in_small). by rewrite P.
Qed.
Theorem C97_drat_reads n original steps t : N.of_nat n <= 2 ^ 31 -> Forall (printable n) steps -> emit_drat n original steps = Some (inr t) -> parse_dpr t = Some (steps ++ [SRup []]).
Proof.
  intros Ln F H. destruct (drat_text n steps Ln F 0 original [] t H) as (ls & -> & N & P). unfold parse_dpr. cbn [app]. rewrite lines_text, parse_blank by done. exact P.
Qed.

(** ** Emitted DPR is accepted *)
Lemma range_app n db c : db_in_range n db -> in_range n c -> db_in_range n (db ++ [c]).
Proof. intros R Rc d Hd. apply elem_of_app in Hd as [Hd|Hd]; [auto|]. apply elem_of_list_singleton in Hd as ->. done. Qed.
Lemma nil_range n : in_range n [].
Proof. intros l H. by apply elem_of_nil in H. Qed.
Lemma front_same p c : p ∈ c -> same_lits (front p c) c.
Proof.
  intros Hp l. unfold front. rewrite elem_of_cons, elem_of_list_In, filter_In, <- elem_of_list_In. split; [by intros [->|[H _]]|]. intros H. destruct (decide (l = p)) as [->|N]; [by left|]. right. split; [done|]. by rewrite bool_decide_false.
Qed.
Lemma layer_elem canon : forall w l, l ∈ layer w canon -> l ∈ w \/ l ∈ canon.
Proof.
  induction canon as [|k canon IH]; intros w l; cbn [layer]; [auto|]. intros H. apply IH in H as [H|H]; [|right; by right]. destruct (_ || _); [by left|]. apply elem_of_app in H as [H|H]; [by left|].
  apply elem_of_list_singleton in H as ->. right. left.
Qed.
Lemma pivots_ok n db c canon pivots omega : try_pivots n db c canon pivots = Some (Some omega) -> is_pr n db c (WAssignment omega) = Some true /\ exists p, p ∈ pivots /\ omega = layer [p] canon.
Proof.
  induction pivots as [|p pivots IH]; cbn [try_pivots]; [done|]. destruct (is_pr n db c (WAssignment (layer [p] canon))) as [[]|] eqn:E; [|intros H; apply IH in H as (A & q & B & C); split; [done|]; exists q; split; [by right|done]|done].
  intros [= <-]. split; [done|]. exists p. split; [left|done].
Qed.
Lemma witness_ok n db c w omega : in_range n c -> witness_in_range n w -> try_assignment_witness n db c w = Some (Some omega) -> in_range n omega /\ is_pr n db c (WAssignment omega) = Some true.
Proof.
  intros Rc Rw H. destruct w as [ls|s]; cbn [try_assignment_witness] in H.
  - destruct (is_pr n db c (WAssignment ls)) as [[]|] eqn:E; [|done..]. by injection H as <-.
  - destruct Rw as [Ls Rs]. destruct (apply_clause s c) as [d|] eqn:E; [|done]. pose proof (apply_in_range n s c d Ls Rs E) as Rd. cbv zeta in H.
    destruct (is_pr n db c (WAssignment (map negated d))) as [[]|] eqn:P; [|..|done].
    + injection H as <-. split; [by apply in_range_negated|done].
    + apply pivots_ok in H as (A & p & Hp & ->). split; [|done]. intros l Hl. apply layer_elem in Hl as [Hl|Hl]; [apply elem_of_list_singleton in Hl as ->; by apply Rc|by apply (in_range_negated n d Rd)].
Qed.
Lemma is_pr_same n db db' c c' ls ls' : db_in_range n db -> db_in_range n db' -> in_range n c -> in_range n c' -> in_range n ls -> in_range n ls' -> same_db db db' -> same_lits c c' -> same_lits ls ls' ->
  is_pr n db c (WAssignment ls) = Some true -> is_pr n db' c' (WAssignment ls') = Some true.
Proof.
  intros R R' Rc Rc' Rl Rl' [S1 S2] Sc Sl H. destruct (C73_assignment_exact n db c ls R Rc Rl) as (b & E & B). destruct (C73_assignment_exact n db' c' ls' R' Rc' Rl') as (b' & -> & B'). f_equal. apply B'. clear B'.
  rewrite E in H. injection H as ->. destruct B as [B _]. destruct (B eq_refl) as (Con & (l & L1 & L2) & Ob). split; [|split].
  - intros k K1 K2. apply Sl in K1, K2. by apply (Con k).
  - exists l. split; [by apply Sc|by apply Sl].
  - intros d' Hd'. destruct (S2 d' Hd') as (d & Hd & Ed). destruct (Ob d Hd) as [(k & K1 & K2)|C]; [left; exists k; split; [by apply Ed|by apply Sl]|right].
    eapply contradiction_same; [exact S1| |exact C]. cbn beta. intros k [K|[K1 [K2 K3]]]; [left; by apply Sc|]. right. split; [by apply Ed|]. unfold undecided. by rewrite <- (Sl k), <- (Sl (negated k)).
Qed.
Lemma find_ok (omega c : list RupModel.lit) p : List.find (fun l => bool_decide (l ∈ omega)) c = Some p -> p ∈ c /\ p ∈ omega.
Proof. intros H. apply find_some in H as [H1 H2]. apply bool_decide_eq_true in H2. split; [by apply elem_of_list_In|done]. Qed.
Lemma rup_empty_again n db : db_in_range n db -> is_rup n db [] = Some true -> check_pr_refutation n db [SRup []] = Some true.
Proof.
  intros R H. cbn [check_pr_refutation]. rewrite H. destruct (is_rup_ok n (db ++ [[]]) [] (range_app n db [] R (nil_range n)) (nil_range n)) as (b & -> & B). f_equal. apply B. left. exists []. split; [apply elem_of_app; right; left|].
  intros l Hl. by apply elem_of_nil in Hl.
Qed.
Lemma dpr_accepted n steps : N.of_nat n <= 2 ^ 31 -> Forall (printable n) steps -> forall i db db' out t, db_in_range n db -> db_in_range n db' -> Permutation (map clause_key db) (map clause_key db') ->
  dpr_from n i db out steps = Some (inr t) -> exists ls steps', t = out ++ text_lines ls /\ Forall no_nl ls /\ parse_lines ls = Some steps' /\ check_pr_refutation n db' steps' = Some true.
Proof.
  intros Ln. induction 1 as [|s steps R F IH]; intros i db db' out t Rd Rd' Pm; cbn [dpr_from].
  - destruct (is_rup n db []) as [[]|] eqn:E; try done. intros [= <-]. exists [push_clause []], [SRup []]. split; [done|]. split; [constructor; [apply push_nl|constructor]|]. split; [done|].
    apply rup_empty_again; [done|]. rewrite <- E. symmetry. apply is_rup_same; try done; [apply nil_range..|by apply keys_same].
  - destruct s as [c|c w|c]; cbn in R.
    + destruct (is_rup n db c) as [[]|] eqn:E; try done. intros H. apply (IH (S i) (db ++ [c]) (db' ++ [c])) in H as (ls & steps' & -> & N & P & C); [|by apply range_app..|by rewrite !map_app, Pm].
      exists (push_clause c :: ls), (SRup c :: steps'). split; [rewrite text_cons, <- !app_assoc; done|]. split; [constructor; [apply push_nl|done]|]. cbn [parse_lines app]. destruct (push_line c) as [-> ->].
      rewrite parse_rup by (by eapply in_small). rewrite P. split; [done|]. cbn [check_pr_refutation]. rewrite <- (is_rup_same n db db' c c), E by (done || by apply keys_same). done.
    + destruct R as [Rc Rw]. destruct (try_assignment_witness n db c w) as [[omega|]|] eqn:E; try done. destruct (witness_ok n db c w omega Rc Rw E) as [Ro Q].
      destruct (List.find _ c) as [p|] eqn:Ef; [|done]. apply find_ok in Ef as [Pc Po]. pose proof (front_same p c Pc) as Sc. pose proof (front_same p omega Po) as So.
      assert (Rf : in_range n (front p c)) by (intros l Hl; apply Rc, Sc, Hl). assert (Rg : in_range n (front p omega)) by (intros l Hl; apply Ro, So, Hl).
      intros H. apply (IH (S i) (db ++ [c]) (db' ++ [front p c])) in H as (ls & steps' & -> & N & P & C); [|by apply range_app..|].
      2: { rewrite !map_app, Pm. cbn [map]. by rewrite (proj2 (key_iff (front p c) c) Sc). }
      exists ((push_clause (front p c) ++ [32] ++ push_clause (front p omega)) :: ls), (SPr (front p c) (WAssignment (front p omega)) :: steps'). split; [rewrite text_cons, <- !app_assoc; done|].
      split; [constructor; [apply two_nl|done]|]. cbn [parse_lines]. destruct (two_line (front p c) (front p omega)) as [-> ->]. rewrite parse_pr by (by eapply in_small). rewrite P. split; [done|].
      cbn [check_pr_refutation]. rewrite (is_pr_same n db db' c (front p c) omega (front p omega)); try done; [by apply keys_same|by apply same_sym..].
    + assert (Rx : forall db, db_in_range n db -> db_in_range n (delete_clause c db)) by (intros x Rx d Hd; apply Rx, (delete_sub c x d Hd)).
      intros H. apply (IH (S i) (delete_clause c db) (delete_clause c db')) in H as (ls & steps' & -> & N & P & C); [|auto..|].
      2: { pose proof (delete_keys c db) as K. pose proof (delete_keys c db') as K'. destruct (decide (clause_key c ∈ map clause_key db)) as [I|I].
           - rewrite decide_True in K' by (by rewrite <- Pm). rewrite K, K' in Pm. by apply Permutation_cons_inv in Pm.
           - rewrite decide_False in K' by (by rewrite <- Pm). by rewrite K, K'. }
      exists (([100; 32] ++ push_clause c) :: ls), (SDelete c :: steps'). split; [rewrite text_cons, <- !app_assoc; done|].
      split; [constructor; [apply dell_nl|done]|]. cbn [parse_lines]. destruct (delete_line_trim c) as [-> ->]. rewrite parse_delete by (by eapply in_small). by rewrite P.
Qed.
Theorem C97_dpr_accepted n original steps t : N.of_nat n <= 2 ^ 31 -> db_in_range n original -> Forall (printable n) steps -> emit_dpr n original steps = Some (inr t) ->
  exists steps', parse_dpr t = Some steps' /\ check_pr_refutation n original steps' = Some true.
Proof.
  intros Ln R F H. destruct (dpr_accepted n steps Ln F 0 original original [] t R R (Permutation_refl _) H) as (ls & steps' & -> & N & P & C). exists steps'. split; [|done].
  unfold parse_dpr. cbn [app]. by rewrite lines_text, parse_blank by done.
Qed.
(** Emission to DPR never panics, and every failure says why. With assignment witnesses only it succeeds exactly on accepted proofs. *)
Definition no_substitution (s : step) : Prop := match s with SPr _ (WSubstitution _) => False | _ => True end.
Lemma pr_total n db c ls : db_in_range n db -> in_range n c -> in_range n ls -> is_Some (is_pr n db c (WAssignment ls)).
Proof. intros R Rc Rl. destruct (C73_assignment_exact n db c ls R Rc Rl) as (b & -> & _). eauto. Qed.
Lemma find_total n db c omega : db_in_range n db -> in_range n c -> in_range n omega -> is_pr n db c (WAssignment omega) = Some true -> exists p, List.find (fun l => bool_decide (l ∈ omega)) c = Some p.
Proof.
  intros R Rc Rl H. destruct (C73_assignment_exact n db c omega R Rc Rl) as (b & E & B). rewrite H in E. injection E as <-. destruct B as [B _]. destruct (B eq_refl) as (_ & (l & L1 & L2) & _).
  destruct (List.find _ c) as [p|] eqn:Ef; [eauto|]. apply elem_of_list_In in L1. apply (find_none _ _ Ef) in L1. by rewrite bool_decide_true in L1.
Qed.
Lemma try_total n db c w : db_in_range n db -> in_range n c -> witness_in_range n w -> is_Some (try_assignment_witness n db c w).
Proof.
  intros R Rc Rw. destruct w as [ls|s]; cbn [try_assignment_witness].
  - destruct (pr_total n db c ls R Rc Rw) as [b ->]. eauto.
  - destruct Rw as [Ls Rs]. destruct (apply_clause_total s c) as [d E]; [intros l Hl; rewrite Ls; by apply Rc|]. rewrite E. pose proof (in_range_negated n d (apply_in_range n s c d Ls Rs E)) as Rd. cbv zeta.
    destruct (pr_total n db c (map negated d) R Rc Rd) as [b ->]. destruct b; [eauto|]. assert (G : forall pivots, (forall p, p ∈ pivots -> p ∈ c) -> is_Some (try_pivots n db c (map negated d) pivots)); [|by apply G].
    induction pivots as [|p pivots IH]; intros Hp; cbn [try_pivots]; [eauto|]. assert (Rl : in_range n (layer [p] (map negated d))).
    { intros l Hl. apply layer_elem in Hl as [Hl|Hl]; [|by apply Rd]. apply elem_of_list_singleton in Hl as ->. apply Rc, Hp. left. }
    destruct (pr_total n db c _ R Rc Rl) as [b ->]. destruct b; [eauto|]. apply IH. intros q Hq. apply Hp. by right.
Qed.
Theorem C97_dpr_total n original steps : db_in_range n original -> Forall (step_in_range n) steps -> is_Some (emit_dpr n original steps).
Proof.
  intros R F. unfold emit_dpr. generalize 0%nat, ([] : text). revert original R. induction F as [|s steps Rs F IH]; intros db R i out; cbn [dpr_from].
  - destruct (is_rup_ok n db [] R (nil_range n)) as (b & -> & _). destruct b; eauto.
  - destruct s as [c|c w|c]; cbn in Rs.
    + destruct (is_rup_ok n db c R Rs) as (b & -> & _). destruct b; [apply IH; by apply range_app|eauto].
    + destruct Rs as [Rc Rw]. destruct (try_total n db c w R Rc Rw) as [r E]. rewrite E. destruct r as [omega|]; [|eauto]. destruct (witness_ok n db c w omega Rc Rw E) as [Ro Q].
      destruct (find_total n db c omega R Rc Ro Q) as [p ->]. apply IH. by apply range_app.
    + apply IH. intros d Hd. apply R, (delete_sub c db d Hd).
Qed.
Theorem C97_dpr_exact n original steps : db_in_range n original -> Forall (step_in_range n) steps -> Forall no_substitution steps ->
  ((exists t, emit_dpr n original steps = Some (inr t)) <-> check_pr_refutation n original steps = Some true).
Proof.
  intros R F O. unfold emit_dpr. generalize 0%nat, ([] : text). revert original R. induction F as [|s steps Rs F IH]; intros db R i out; cbn [dpr_from check_pr_refutation].
  - destruct (is_rup n db []) as [[]|]; [split; eauto|split; [intros [t ?]|]; done..].
  - apply Forall_cons in O as [Os O]. specialize (IH O). destruct s as [c|c [ls|s]|c]; cbn in Rs; [| |done|].
    + destruct (is_rup n db c) as [[]|]; [apply IH; by apply range_app|split; [intros [t ?]|]; done..].
    + destruct Rs as [Rc Rw]. cbn [try_assignment_witness]. destruct (is_pr n db c (WAssignment ls)) as [[]|] eqn:E; [|split; [intros [t ?]|]; done..].
      destruct (find_total n db c ls R Rc Rw E) as [p ->]. apply IH. by apply range_app.
    + apply IH. intros d Hd. apply R, (delete_sub c db d Hd).
Qed.
(** The DRAT text, read back, is a proof that the checker accepts. *)
Theorem C97_drat_accepted n original steps t : N.of_nat n <= 2 ^ 31 -> db_in_range n original -> Forall (printable n) steps -> emit_drat n original steps = Some (inr t) ->
  exists steps', parse_dpr t = Some steps' /\ check_pr_refutation n original steps' = Some true.
Proof.
  intros Ln R F H. exists (steps ++ [SRup []]). split; [by eapply C97_drat_reads|]. unfold emit_drat in H. revert H. generalize 0%nat, ([] : text). revert original R. induction F as [|s steps Rs F IH]; intros db R i out; cbn [drat_from app].
  - destruct (is_rup n db []) as [[]|] eqn:E; try done. intros _. by apply rup_empty_again.
  - destruct s as [c|c w|c]; cbn in Rs; [|done|].
    + cbn [check_pr_refutation]. destruct (is_rup n db c) as [[]|]; try done. apply IH. by apply range_app.
    + cbn [check_pr_refutation]. apply IH. intros d Hd. apply R, (delete_sub c db d Hd).
Qed.

(** ** Examples *)
(** Over two variables, with a deletion of one of the original clauses. *)
Definition ex_steps : list step := [SRup [ex_x]; SDelete [ex_y; ex_x]; SRup [ex_y]].
Example ex_steps_range : db_in_range 2 ex_db /\ Forall (step_in_range 2) ex_steps /\ Forall (printable 2) ex_steps /\ Forall rup_only ex_steps.
Proof.
  assert (K : forall c : clause, forallb (fun l => Nat.ltb (lvar l) 2) c = true -> in_range 2 c) by (intros c H l Hl; apply elem_of_list_In in Hl; eapply forallb_forall in H; [|exact Hl]; by apply Nat.ltb_lt).
  split; [|unfold ex_steps; rewrite !Forall_cons, !Forall_nil; cbn [step_in_range printable rup_only]; repeat split; by apply K]. intros c Hc. apply K. repeat (apply elem_of_cons in Hc as [->|Hc]; [reflexivity|]). by apply elem_of_nil in Hc.
Qed.
(** "1 0\nd 2 1 0\n2 0\n0\n" *)
Example C97_drat_ex : emit_drat 2 ex_db ex_steps = Some (inr [49; 32; 48; 10; 100; 32; 50; 32; 49; 32; 48; 10; 50; 32; 48; 10; 48; 10]) /\
  parse_dpr [49; 32; 48; 10; 100; 32; 50; 32; 49; 32; 48; 10; 50; 32; 48; 10; 48; 10] = Some (ex_steps ++ [SRup []]).
Proof. split; vm_compute; reflexivity. Qed.
(** "5 1 0 1 2 0\n5 d 1 0\n6 2 0 3 5 0\n7 0 5 6 4 0\n" *)
Definition ex_lrat : text := [53; 32; 49; 32; 48; 32; 49; 32; 50; 32; 48; 10; 53; 32; 100; 32; 49; 32; 48; 10; 54; 32; 50; 32; 48; 32; 51; 32; 53; 32; 48; 10; 55; 32; 48; 32; 53; 32; 54; 32; 52; 32; 48; 10].
Example C97_lrat_ex : emit_lrat 2 ex_db ex_steps = Some (inr ex_lrat) /\ check_lrat 2 ex_db ex_lrat = Some true /\ check_pr_refutation 2 ex_db ex_steps = Some true.
Proof. split; [|split]; vm_compute; reflexivity. Qed.
(** A hint missing. *)
Example C97_lrat_bad_ex : check_lrat 2 ex_db [53; 32; 49; 32; 48; 32; 49; 32; 48; 10; 55; 32; 48; 32; 53; 32; 51; 32; 52; 32; 48; 10] = Some false.
Proof. vm_compute. reflexivity. Qed.
(** A step with a witness: "-2 -1 0 -2 1 0\n" comes first, with the pivot in front; DRAT refuses it. *)
Definition ex_pr : step := SPr [negated ex_x; negated ex_y] (WAssignment [ex_x; negated ex_y]).
Example C97_dpr_ex : emit_dpr 2 [[ex_x; ex_y]] [ex_pr] = Some (inl EmptyClauseNotRup) /\ emit_drat 2 [[ex_x; ex_y]] [ex_pr] = Some (inl (PrInRupOnlyFormat 0)) /\
  emit_dpr 2 ex_db (ex_pr :: ex_steps) = Some (inr [45; 50; 32; 45; 49; 32; 48; 32; 45; 50; 32; 49; 32; 48; 10; 49; 32; 48; 10; 100; 32; 50; 32; 49; 32; 48; 10; 50; 32; 48; 10; 48; 10]).
Proof. repeat split; vm_compute; reflexivity. Qed.
