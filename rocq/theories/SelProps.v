(** C127: symmetric explanation learning. *)
From Coq Require Import List Arith NArith Bool Lia.
From stdpp Require Import list.
From Verif Require Import RupModel RupProofs RupProps PrModel PrProofs PrIndex PrProps SelModel.

(** ** Images of RUP clauses under symmetries of the database are RUP *)
Lemma apply_negated s l k : apply_lit s l = Some k -> apply_lit s (negated l) = Some (negated k).
Proof.
  unfold apply_lit, negated. destruct l as [v b]. cbn. destruct (s !! v) as [[w t]|]; [|discriminate]. intros [= <-]. destruct b; cbn; rewrite ?negb_involutive; reflexivity.
Qed.
Theorem C127_symmetric n db s c d : db_in_range n db -> in_range n c -> length s = n -> in_range n s -> maps_into s db ->
  apply_clause s c = Some d -> is_rup n db c = Some true -> is_rup n db d = Some true.
Proof.
  intros R Rc L Rs M E H. assert (Rd : in_range n d) by exact (apply_in_range n s c d L Rs E).
  destruct (C37_step_exact n db c R Rc) as (b & Eb & Hb). assert (b = true) by congruence. subst b.
  destruct (C37_step_exact n db d R Rd) as (b' & Eb' & Hb'). rewrite Eb'. f_equal. apply Hb'. pose proof (proj1 Hb eq_refl) as C. clear Hb Hb' Eb Eb' H b'.
  destruct (apply_clause_elem s c d E) as [Ec1 Ec2].
  assert (Step : forall e e', e ∈ db -> apply_clause s e = Some e' -> exists f, f ∈ db /\ (forall l k, l ∈ e -> apply_lit s l = Some k -> k ∈ f) /\ (forall k, k ∈ f -> exists l, l ∈ e /\ apply_lit s l = Some k)).
  { intros e e' He Ee. destruct (M e e' He Ee) as (f & Hf & S). exists f. split; [exact Hf|]. destruct (apply_clause_elem s e e' Ee) as [A B]. split.
    - intros l k Hl Ek. apply S. destruct (A l Hl) as (k' & Ek' & Hk'). assert (k' = k) by congruence. subst. exact Hk'.
    - intros k Hk. apply B, S, Hk. }
  assert (Total : forall e, e ∈ db -> exists e', apply_clause s e = Some e').
  { intros e He. apply apply_clause_total. rewrite L. exact (R e He). }
  assert (D : forall l, derived db (neg_of c) l -> forall k, apply_lit s l = Some k -> derived db (neg_of d) k).
  { intros l Hd. induction Hd as [l Hl | e l He Hl Hk IH]; intros k Ek.
    - apply d_start. unfold neg_of in *. destruct (Ec1 _ Hl) as (k' & Ek' & Hk'). rewrite (apply_negated s l k Ek) in Ek'. congruence.
    - destruct (Total e He) as [e' Ee]. destruct (Step e e' He Ee) as (f & Hf & A & B). apply (d_unit _ _ f); [exact Hf|exact (A l k Hl Ek)|].
      intros k' Hk' Ne. destruct (B k' Hk') as (l' & Hl' & El'). apply (IH l' Hl'); [intros ->; congruence|]. apply apply_negated, El'. }
  assert (App : forall l, derived db (neg_of c) l -> exists k, apply_lit s l = Some k).
  { intros l Hd. assert (Lv : (lvar l < n)%nat).
    { destruct Hd as [l Hl | e l He Hl _]; [exact (Rc _ Hl)|exact (R e He l Hl)]. }
    unfold apply_lit. destruct (s !! lvar l) as [i|] eqn:Ei; [eauto|]. apply lookup_ge_None in Ei. lia. }
  destruct C as [(e & He & Hl) | (l & H1 & H2)].
  - left. destruct (Total e He) as [e' Ee]. destruct (Step e e' He Ee) as (f & Hf & A & B). exists f. split; [exact Hf|]. intros k Hk. destruct (B k Hk) as (l & Hl' & El).
    apply (D (negated l) (Hl l Hl')). apply apply_negated, El.
  - right. destruct (App l H1) as [k Ek]. exists k. split; [exact (D l H1 k Ek)|]. apply (D _ H2), apply_negated, Ek.
Qed.

(** ** The invariant of the search *)
Record good (n : nat) (clauses : list clause) (s : state) : Prop := {
  g_run : forall rest, check_pr_refutation n clauses (steps s ++ rest) = check_pr_refutation n (db s) rest;
  g_rup : forall st, st ∈ steps s -> exists c, st = SRup c;
  g_db : db s = clauses ++ flat_map (fun st => match st with SRup c => [c] | _ => [] end) (steps s);
  g_models : forall f, satisfies f clauses -> satisfies f (db s);
  g_seen : forall k, k ∈ seen s <-> k ∈ map clause_key (db s) }.

Lemma good_start n clauses : good n clauses (State clauses [] (map clause_key clauses)).
Proof. constructor; cbn; [reflexivity|intros st H; apply elem_of_nil in H; contradiction|rewrite app_nil_r; reflexivity|auto|reflexivity]. Qed.
Lemma try_add_good n clauses s x s' b : good n clauses s -> try_add n s x = Some (s', b) ->
  good n clauses s' /\ (if b then db s' = db s ++ [x] /\ is_rup n (db s) x = Some true /\ forall d, d ∈ db s -> ~ same_lits d x
                        else s' = s /\ ((exists d, d ∈ db s /\ same_lits d x) \/ is_rup n (db s) x = Some false)).
Proof.
  intros G. unfold try_add. destruct (existsb _ (seen s)) eqn:X.
  - intros [= <- <-]. split; [exact G|]. split; [reflexivity|]. left. apply existsb_exists in X as (k & Hk & B). apply bool_decide_eq_true in B. subst k.
    apply elem_of_list_In, (g_seen _ _ _ G), elem_of_list_fmap in Hk as (d & E & Hd). exists d. split; [exact Hd|]. apply key_iff. symmetry. exact E.
  - destruct (is_rup n (db s) x) as [[|]|] eqn:R; intros [= <- <-].
    + split; [|split; [reflexivity|split; [reflexivity|]]].
      * destruct G as [G1 G2 G3 G4 G5]. constructor; cbn [db steps seen].
        -- intros rest. rewrite <- app_assoc, G1. cbn [app check_pr_refutation]. rewrite R. reflexivity.
        -- intros st H. apply elem_of_app in H as [H | H]; [exact (G2 st H)|]. apply elem_of_list_singleton in H as ->. eauto.
        -- rewrite G3 at 1. rewrite flat_map_app, app_assoc. reflexivity.
        -- intros f Sf d Hd. apply elem_of_app in Hd as [Hd | Hd]; [exact (G4 f Sf d Hd)|]. apply elem_of_list_singleton in Hd as ->. exact (C37_step_sound n (db s) x f R (G4 f Sf)).
        -- intros k. rewrite elem_of_cons, map_app, elem_of_app, G5. cbn [map]. rewrite elem_of_list_singleton. tauto.
      * intros d Hd Sd. assert (Y : existsb (fun k => bool_decide (k = clause_key x)) (seen s) = true); [|congruence]. apply existsb_exists. exists (clause_key d).
        split; [|apply bool_decide_eq_true, key_iff, Sd]. apply elem_of_list_In, (g_seen _ _ _ G), elem_of_list_fmap. exists d. auto.
    + split; [exact G|]. auto.
Qed.
Lemma add_all_good n clauses learned : forall s s', good n clauses s -> add_all n s learned = Some s' -> good n clauses s'.
Proof.
  induction learned as [|c learned IH]; intros s s' G; cbn [add_all]; [intros [= <-]; exact G|]. destruct (try_add n s c) as [[s1 b]|] eqn:T; [|discriminate].
  intros H. apply (IH s1); [|exact H]. apply (try_add_good n clauses s c s1 b G T).
Qed.
Lemma amplify_good n clauses gens : forall s c amp pr s' amp' pr', good n clauses s -> amplify n gens s c amp pr = Some (s', amp', pr') -> good n clauses s'.
Proof.
  induction gens as [|g gens IH]; intros s c amp pr s' amp' pr' G; cbn [amplify]; [intros [= <- _ _]; exact G|]. destruct (apply_clause g c) as [im|]; [|discriminate].
  destruct (try_add n s im) as [[s1 b]|] eqn:T; [|discriminate]. pose proof (proj1 (try_add_good n clauses s im s1 b G T)) as G1. destruct b; intros H; eapply IH; eassumption.
Qed.
Lemma learn_good n clauses gens learned : forall s amp pr s' amp' pr', good n clauses s -> learn n gens s learned amp pr = Some (s', amp', pr') -> good n clauses s'.
Proof.
  induction learned as [|c learned IH]; intros s amp pr s' amp' pr' G; cbn [learn]; [intros [= <- _ _]; exact G|]. destruct (try_add n s c) as [[s1 b]|] eqn:T; [|discriminate].
  pose proof (proj1 (try_add_good n clauses s c s1 b G T)) as G1. destruct (amplify n gens s1 c amp (pr || b)) as [[[s2 a2] p2]|] eqn:A; [|discriminate].
  apply IH. exact (amplify_good n clauses gens _ _ _ _ _ _ _ G1 A).
Qed.
Lemma rounds_good n clauses gens solve fuel : forall s k amp budget r, good n clauses s -> rounds fuel n gens solve s k amp budget = Some r ->
  match r with
  | inr (s', _, _) => good n clauses s'
  | inl model => exists d budget learned k, (forall c, c ∈ clauses -> c ∈ d) /\ (forall f, satisfies f clauses -> satisfies f d) /\ solve d budget = (VSat model, learned, k)
  end.
Proof.
  induction fuel as [|fuel IH]; intros s k amp budget r G; cbn [rounds]; [intros [= <-]; exact G|]. destruct (is_rup n (db s) []) as [[|]|]; [intros [= <-]; exact G| |discriminate].
  destruct (solve (db s) budget) as [[v learned] k'] eqn:S. destruct v as [model| |].
  - intros [= <-]. exists (db s), budget, learned, k'. split; [|split; [apply (g_models _ _ _ G)|exact S]]. intros c Hc. rewrite (g_db _ _ _ G). apply elem_of_app. auto.
  - destruct (add_all n s learned) as [s'|] eqn:A; [|discriminate]. intros [= <-]. exact (add_all_good n clauses learned s s' G A).
  - destruct (learn n gens s learned amp false) as [[[s1 a1] p1]|] eqn:A; [|discriminate]. pose proof (learn_good n clauses gens learned _ _ _ _ _ _ G A) as G1. destruct p1; [apply IH, G1|].
    destruct (1000000 <? 2 * budget)%N; [intros [= <-]; exact G1|apply IH, G1].
Qed.

(** ** Everything stays in range, so nothing panics *)
Definition ranged (n : nat) (s : state) : Prop := db_in_range n (db s) /\ Forall (step_in_range n) (steps s).
Definition perm_ok (n : nat) (g : perm) : Prop := length g = n /\ in_range n g.
Lemma try_add_ranged n s x : ranged n s -> in_range n x -> exists s' b, try_add n s x = Some (s', b) /\ ranged n s'.
Proof.
  intros [R F] Rx. unfold try_add. destruct (existsb _ (seen s)); [exists s, false; split; [reflexivity|split; assumption]|].
  destruct (C37_step_exact n (db s) x R Rx) as (b & Eb & _). rewrite Eb. destruct b; [|exists s, false; split; [reflexivity|split; assumption]].
  eexists _, true. split; [reflexivity|]. split; cbn [db steps].
  - intros c Hc. apply elem_of_app in Hc as [Hc | Hc]; [exact (R c Hc)|]. apply elem_of_list_singleton in Hc as ->. exact Rx.
  - apply Forall_app. split; [exact F|]. constructor; [exact Rx|constructor].
Qed.
Lemma add_all_ranged n learned : forall s, ranged n s -> db_in_range n learned -> exists s', add_all n s learned = Some s' /\ ranged n s'.
Proof.
  induction learned as [|c learned IH]; intros s R Rl; cbn [add_all]; [eauto|].
  destruct (try_add_ranged n s c R (Rl c ltac:(left))) as (s1 & b & -> & R1). apply (IH s1 R1). intros d Hd. apply Rl. right. exact Hd.
Qed.
Lemma amplify_ranged n gens : forall s c amp pr, ranged n s -> in_range n c -> Forall (perm_ok n) gens -> exists s' amp' pr', amplify n gens s c amp pr = Some (s', amp', pr') /\ ranged n s'.
Proof.
  induction gens as [|g gens IH]; intros s c amp pr R Rc F; cbn [amplify]; [eauto 6|]. apply Forall_cons in F as [[L Rg] F].
  destruct (apply_clause_total g c) as [im E]; [rewrite L; exact Rc|]. rewrite E. destruct (try_add_ranged n s im R (apply_in_range n g c im L Rg E)) as (s1 & b & -> & R1).
  destruct b; apply IH; assumption.
Qed.
Lemma learn_ranged n gens learned : forall s amp pr, ranged n s -> db_in_range n learned -> Forall (perm_ok n) gens -> exists s' amp' pr', learn n gens s learned amp pr = Some (s', amp', pr') /\ ranged n s'.
Proof.
  induction learned as [|c learned IH]; intros s amp pr R Rl F; cbn [learn]; [eauto 6|]. assert (Rc : in_range n c) by (apply Rl; left).
  destruct (try_add_ranged n s c R Rc) as (s1 & b & -> & R1). destruct (amplify_ranged n gens s1 c amp (pr || b) R1 Rc F) as (s2 & a2 & p2 & -> & R2).
  apply (IH s2 a2 p2 R2); [|exact F]. intros d Hd. apply Rl. right. exact Hd.
Qed.
Lemma rounds_ranged n gens solve fuel : (forall d budget v learned k, solve d budget = (v, learned, k) -> db_in_range n learned) -> Forall (perm_ok n) gens ->
  forall s k amp budget, ranged n s -> exists r, rounds fuel n gens solve s k amp budget = Some r /\ match r with inl _ => True | inr (s', _, _) => ranged n s' end.
Proof.
  intros Sv F. induction fuel as [|fuel IH]; intros s k amp budget R; cbn [rounds]; [eexists; split; [reflexivity|exact R]|].
  destruct (C37_step_exact n (db s) [] (proj1 R)) as (b & Eb & _); [intros l Hl; apply elem_of_nil in Hl; contradiction|]. rewrite Eb. destruct b; [eexists; split; [reflexivity|exact R]|].
  destruct (solve (db s) budget) as [[v learned] k'] eqn:S. pose proof (Sv _ _ _ _ _ S) as Rl. destruct v as [model| |].
  - eexists. split; [reflexivity|exact I].
  - destruct (add_all_ranged n learned s R Rl) as (s1 & -> & R1). eexists. split; [reflexivity|exact R1].
  - destruct (learn_ranged n gens learned s amp false R Rl F) as (s1 & a1 & p1 & -> & R1). destruct p1; [apply IH, R1|].
    destruct (1000000 <? 2 * budget)%N; [eexists; split; [reflexivity|exact R1]|apply IH, R1].
Qed.

(** For any solver whose learned clauses are in range (right or wrong) and any generators on the variables, symmetries or
    not: the procedure does not panic; an unsatisfiability verdict is right and its steps are RUP additions that
    check; a model comes from the solver, on a database that contains the clauses and has the same models. *)
Theorem C127_sound rounds n gens solve clauses : db_in_range n clauses -> (forall d budget v learned k, solve d budget = (v, learned, k) -> db_in_range n learned) -> Forall (perm_ok n) gens ->
  exists o, sel_refute rounds n gens solve clauses = Some o /\
  match o with
  | OUnsat steps _ _ => (~ exists f, satisfies f clauses) /\ check_pr_refutation n clauses steps = Some true /\ (forall st, st ∈ steps -> exists c, st = SRup c)
  | OSat model => exists d budget learned k, (forall c, c ∈ clauses -> c ∈ d) /\ (forall f, satisfies f clauses -> satisfies f d) /\ solve d budget = (VSat model, learned, k)
  | OUnknown _ => True
  end.
Proof.
  intros R Sv F. unfold sel_refute. set (s0 := State clauses [] (map clause_key clauses)).
  destruct (rounds_ranged n gens solve rounds Sv F s0 0 0 64) as (r & E & Rr); [split; [exact R|constructor]|]. rewrite E.
  pose proof (rounds_good n clauses gens solve _ s0 _ _ _ _ (good_start n clauses) E) as G. destruct r as [model | [[s k] amp]].
  - eexists. split; [reflexivity|exact G].
  - destruct Rr as [Rd Rs]. rewrite (C73_fast_agrees n clauses (steps s) R Rs). pose proof (g_run _ _ _ G []) as H. rewrite app_nil_r in H. cbn [check_pr_refutation] in H.
    destruct (C37_step_exact n (db s) [] Rd) as (b & Eb & _); [intros l Hl; apply elem_of_nil in Hl; contradiction|]. rewrite Eb in H. rewrite H.
    destruct b; (eexists; split; [reflexivity|]); [|exact I]. split; [exact (C73_refutation_sound n clauses (steps s) H)|]. split; [exact H|exact (g_rup _ _ _ G)].
Qed.
(** With in-range steps the final check only asks whether the final database propagates to a contradiction: no step that
    entered the proof is ever rejected. *)
Theorem C127_final_check n clauses gens solve rounds s k amp : db_in_range n clauses -> Forall (step_in_range n) (steps s) ->
  SelModel.rounds rounds n gens solve (State clauses [] (map clause_key clauses)) 0 0 64 = Some (inr (s, k, amp)) ->
  check_pr_refutation_fast n clauses (steps s) = is_rup n (db s) [] /\ (forall f, satisfies f clauses <-> satisfies f (db s)).
Proof.
  intros R Rs E. pose proof (rounds_good n clauses gens solve _ _ _ _ _ _ (good_start n clauses) E) as G. cbn in G. split.
  - rewrite C73_fast_agrees by assumption. pose proof (g_run _ _ _ G []) as H. rewrite app_nil_r in H. exact H.
  - intros f. split; [apply (g_models _ _ _ G)|]. intros H c Hc. apply H. rewrite (g_db _ _ _ G). apply elem_of_app. auto.
Qed.
(** [try_add] adds a clause exactly when it is RUP and no clause with the same literals is present. *)
Theorem C127_try_add n s x s' b : (forall k, k ∈ seen s <-> k ∈ map clause_key (db s)) -> try_add n s x = Some (s', b) ->
  (b = true <-> is_rup n (db s) x = Some true /\ forall d, d ∈ db s -> ~ same_lits d x) /\
  (if b then db s' = db s ++ [x] /\ steps s' = steps s ++ [SRup x] else s' = s).
Proof.
  intros Sn. unfold try_add. destruct (existsb _ (seen s)) eqn:X.
  - intros [= <- <-]. split; [|reflexivity]. split; [discriminate|]. intros [_ H]. exfalso. apply existsb_exists in X as (k & Hk & B). apply bool_decide_eq_true in B. subst k.
    apply elem_of_list_In, Sn, elem_of_list_fmap in Hk as (d & E & Hd). apply (H d Hd), key_iff. symmetry. exact E.
  - destruct (is_rup n (db s) x) as [[|]|] eqn:R; intros [= <- <-].
    + split; [|auto]. split; [|reflexivity]. intros _. split; [reflexivity|]. intros d Hd Sd.
      assert (Y : existsb (fun k => bool_decide (k = clause_key x)) (seen s) = true); [|congruence]. apply existsb_exists. exists (clause_key d).
      split; [|apply bool_decide_eq_true, key_iff, Sd]. apply elem_of_list_In, Sn, elem_of_list_fmap. exists d. auto.
    + split; [|reflexivity]. split; [discriminate|]. intros [H _]. discriminate.
Qed.

(** ** Progress and amplification counts *)
Lemma try_add_steps n s x s' b : try_add n s x = Some (s', b) -> length (steps s') = (length (steps s) + if b then 1 else 0)%nat.
Proof.
  unfold try_add. destruct (existsb _ (seen s)); [intros [= <- <-]; lia|]. destruct (is_rup n (db s) x) as [[|]|]; intros [= <- <-]; cbn [steps]; [rewrite app_length; cbn; lia|lia].
Qed.
Lemma amplify_counts n gens : forall s c amp pr s' amp' pr', amplify n gens s c amp pr = Some (s', amp', pr') ->
  (length (steps s') + amp = length (steps s) + amp')%nat /\ (length (steps s) <= length (steps s'))%nat /\ (pr' = true <-> pr = true \/ (length (steps s) < length (steps s'))%nat).
Proof.
  induction gens as [|g gens IH]; intros s c amp pr s' amp' pr'; cbn [amplify].
  - intros [= <- <- <-]. split; [lia|]. split; [lia|]. split; [auto|]. intros [H | H]; [exact H|lia].
  - destruct (apply_clause g c) as [im|]; [|discriminate]. destruct (try_add n s im) as [[s1 b]|] eqn:T; [|discriminate]. pose proof (try_add_steps n s im s1 b T) as L.
    destruct b; intros H; apply IH in H as (A & B & C); (split; [lia|]; split; [lia|]); rewrite C; split; intros [H | H]; try (left; exact H); try (left; reflexivity); right; lia.
Qed.
(** A pass over learned clauses reports progress exactly when it added a step; the amplification count never exceeds the
    steps added, and the difference is at most one step per learned clause. *)
Theorem C127_progress n gens learned : forall s amp pr s' amp' pr', learn n gens s learned amp pr = Some (s', amp', pr') ->
  (pr' = true <-> pr = true \/ (length (steps s) < length (steps s'))%nat) /\
  (length (steps s) + amp' <= length (steps s') + amp <= length (steps s) + amp' + length learned)%nat /\ (amp <= amp')%nat.
Proof.
  induction learned as [|c learned IH]; intros s amp pr s' amp' pr'; cbn [learn].
  - intros [= <- <- <-]. split; [split; [auto|]; intros [H | H]; [exact H|lia]|]. cbn. lia.
  - destruct (try_add n s c) as [[s1 b]|] eqn:T; [|discriminate]. pose proof (try_add_steps n s c s1 b T) as L.
    destruct (amplify n gens s1 c amp (pr || b)) as [[[s2 a2] p2]|] eqn:A; [|discriminate]. apply amplify_counts in A as (A1 & A2 & A3).
    intros H. apply IH in H as (B1 & B2 & B3). cbn [length]. split; [|destruct b; lia]. rewrite B1, A3, orb_true_iff. destruct b; split.
    + intros _. right. lia.
    + intros _. left. left. right. reflexivity.
    + intros [[[H | H] | H] | H]; [left; exact H|discriminate|right; lia|right; lia].
    + intros [H | H]; [left; left; left; exact H|]. destruct (decide (length (steps s1) < length (steps s2))%nat); [left; right; assumption|right; lia].
Qed.
(** ** Example: all four clauses over two variables; the solver learns [x], its image under the exchange is [y]. *)
Definition four : list clause := [[Lit 0 true; Lit 1 true]; [Lit 0 true; Lit 1 false]; [Lit 0 false; Lit 1 true]; [Lit 0 false; Lit 1 false]].
Definition exchange : perm := [Lit 1 true; Lit 0 true].
Definition learns (d : list clause) (budget : N) : verdict * list clause * N := (VBudget, [[Lit 0 true]; [Lit 1 false]], 1%N).
Example C127_example :
  sel_refute 10 2 [exchange] learns four = Some (OUnsat [SRup [Lit 0 true]; SRup [Lit 1 true]; SRup [Lit 1 false]; SRup [Lit 0 false]] 1 2) /\
  sel_refute 10 2 [exchange] (fun _ _ => (VBudget, [], 3%N)) four = Some (OUnknown 30) /\
  is_rup 2 four [Lit 0 true] = Some true /\ is_rup 2 four [Lit 1 true] = Some true /\ db_in_range 2 four /\ maps_into exchange four /\
  perm_ok 2 exchange /\ db_in_range 2 [[Lit 0 true]; [Lit 1 false]].
Proof.
  split; [vm_compute; reflexivity|]. split; [vm_compute; reflexivity|]. split; [vm_compute; reflexivity|]. split; [vm_compute; reflexivity|].
  split.
  - intros c Hc l Hl. unfold four in Hc. repeat (apply elem_of_cons in Hc as [-> | Hc]; [repeat (apply elem_of_cons in Hl as [-> | Hl]; [cbn; lia |]); apply elem_of_nil in Hl; contradiction|]). apply elem_of_nil in Hc. contradiction.
  - split; [|split; [split; [reflexivity|intros l Hl; unfold exchange in Hl; repeat (apply elem_of_cons in Hl as [-> | Hl]; [cbn; lia|]); apply elem_of_nil in Hl; contradiction]|]].
    2:{ intros c Hc l Hl. repeat (apply elem_of_cons in Hc as [-> | Hc]; [apply elem_of_list_singleton in Hl as ->; cbn; lia|]). apply elem_of_nil in Hc. contradiction. }
    intros c d Hc Ed. assert (K : has_key four (clause_key d) = true).
    { unfold four in Hc. repeat (apply elem_of_cons in Hc as [-> | Hc]; [vm_compute in Ed; injection Ed as <-; vm_compute; reflexivity|]). apply elem_of_nil in Hc. contradiction. }
    apply has_key_iff in K. exact K.
Qed.
