(** C128: satisfaction-driven clause learning. *)
From Coq Require Import List Arith Bool Lia.
From stdpp Require Import list.
From Verif Require Import RupModel RupProofs RupProps PrModel PrProofs PrIndex PrProps SdclModel.

(** ** The finder *)
Theorem C128_find n solve db alpha gs c w : find_unified n solve db alpha gs = Some (Some (c, w)) ->
  c = map negated alpha /\ is_pr n db c w = Some true /\ ((exists f, satisfies f db) -> exists f, satisfies f (db ++ [c])).
Proof.
  intros H. assert (K : c = map negated alpha /\ is_pr n db c w = Some true).
  { revert H. unfold find_unified. destruct (find_pr_clause n solve db alpha) as [[[c' w']|]|] eqn:F; [| |discriminate].
    - intros [= -> ->]. revert F. unfold find_pr_clause. destruct (map negated alpha) as [|x xs]; [discriminate|].
      destruct (fst (solve _)) as [model|]; [|discriminate]. destruct (read_model model _) as [omega|]; [|discriminate].
      destruct (is_pr n db (x :: xs) (WAssignment omega)) as [[|]|] eqn:P; try discriminate. intros [= <- <-]. auto.
    - clear F. induction gs as [|g gs IH]; cbn [try_generators]; [discriminate|]. destruct (is_pr n db (map negated alpha) _) as [[|]|] eqn:P; [|exact IH|discriminate]. intros [= <- <-]. auto. }
  destruct K as [K1 K2]. split; [exact K1|]. split; [exact K2|]. exact (C73_step_sound n db c w K2).
Qed.

(** ** The discovery loop *)
Lemma code_inj_map (c d : clause) : map code c = map code d -> c = d.
Proof.
  revert d. induction c as [|[v b] c IH]; intros [|[v' b'] d]; cbn; try discriminate; [reflexivity|]. intros [= E1 E2]. f_equal; [|exact (IH d E2)].
  unfold code in E1. cbn in E1. destruct b, b'; f_equal; lia.
Qed.
Lemma clause_eqb_iff c d : clause_eqb c d = true <-> c = d.
Proof. unfold clause_eqb. rewrite bool_decide_eq_true. split; [apply code_inj_map|intros ->; reflexivity]. Qed.
Lemma in_db c db : existsb (clause_eqb c) db = true <-> c ∈ db.
Proof.
  rewrite existsb_exists. split; [intros (d & Hd & E); apply clause_eqb_iff in E as ->; apply elem_of_list_In, Hd|].
  intros H. exists c. split; [apply elem_of_list_In, H|apply clause_eqb_iff; reflexivity].
Qed.
Lemma probe_some n solve db gs ls c w : probe n solve db gs ls = Some (Some (c, w)) -> c ∉ db /\ exists l, l ∈ ls /\ c = [negated l] /\ is_pr n db c w = Some true.
Proof.
  induction ls as [|l ls IH]; cbn [probe]; [discriminate|]. destruct (find_unified n solve db [l] gs) as [[[c' w']|]|] eqn:F; [| |discriminate].
  - destruct (existsb (clause_eqb c') db) eqn:X.
    + intros H. destruct (IH H) as (A & k & B & C). split; [exact A|]. exists k. split; [right; exact B|exact C].
    + intros [= -> ->]. destruct (C128_find _ _ _ _ _ _ _ F) as (-> & P & _). split; [intros Hc; apply in_db in Hc; congruence|]. exists l. split; [left|]. auto.
  - intros H. destruct (IH H) as (A & k & B & C). split; [exact A|]. exists k. split; [right; exact B|exact C].
Qed.
Lemma probe_none n solve db gs ls : probe n solve db gs ls = Some None ->
  forall l, l ∈ ls -> find_unified n solve db [l] gs = Some None \/ exists w, find_unified n solve db [l] gs = Some (Some ([negated l], w)) /\ [negated l] ∈ db.
Proof.
  induction ls as [|l ls IH]; cbn [probe]; intros H k Hk; [apply elem_of_nil in Hk; contradiction|].
  destruct (find_unified n solve db [l] gs) as [[[c w]|]|] eqn:F; [| |discriminate].
  - destruct (existsb (clause_eqb c) db) eqn:X; [|discriminate]. apply elem_of_cons in Hk as [-> | Hk]; [|exact (IH H k Hk)].
    right. exists w. destruct (C128_find _ _ _ _ _ _ _ F) as (-> & _). split; [exact F|]. apply in_db, X.
  - apply elem_of_cons in Hk as [-> | Hk]; [left; exact F|exact (IH H k Hk)].
Qed.
Lemma probes_elem n l : l ∈ probes n <-> (lvar l < n)%nat.
Proof.
  unfold probes. rewrite elem_of_list_In, in_flat_map. split.
  - intros (v & Hv & Hl). apply in_seq in Hv. destruct Hl as [<- | [<- | []]]; cbn; lia.
  - intros H. exists (lvar l). split; [apply in_seq; lia|]. destruct l as [v []]; cbn; auto.
Qed.
Lemma probes_length n : length (probes n) = (2 * n)%nat.
Proof.
  unfold probes. assert (forall a, length (flat_map (fun v => [Lit v true; Lit v false]) (seq a n)) = (2 * n)%nat) as H; [|apply H].
  induction n as [|n IH]; intros a; cbn [seq flat_map]; [reflexivity|]. rewrite app_length, IH. cbn. lia.
Qed.
Definition step_clause (s : step) : clause := match s with SRup c | SPr c _ | SDelete c => c end.
Record found (n : nat) (clauses db : list clause) (steps : list step) : Prop := {
  f_db : db = clauses ++ map step_clause steps;
  f_steps : forall s, s ∈ steps -> exists l w, s = SPr [negated l] w /\ (lvar l < n)%nat;
  f_new : NoDup (map step_clause steps) /\ forall s, s ∈ steps -> step_clause s ∉ clauses;
  f_sat : (exists f, satisfies f clauses) <-> (exists f, satisfies f db);
  f_run : forall rest, check_pr_refutation n clauses (steps ++ rest) = check_pr_refutation n db rest }.
Lemma found_bound n clauses db steps : found n clauses db steps -> (length steps <= 2 * n)%nat.
Proof.
  intros F. rewrite <- (map_length step_clause), <- probes_length, <- (map_length (fun l => [negated l])). apply NoDup_incl_length; [apply NoDup_ListNoDup, (proj1 (f_new _ _ _ _ F))|].
  intros c Hc. apply in_map_iff in Hc as (s & <- & Hs). apply elem_of_list_In in Hs. destruct (f_steps _ _ _ _ F s Hs) as (l & w & -> & L). apply in_map_iff. exists l. split; [reflexivity|].
  apply elem_of_list_In, probes_elem, L.
Qed.
Lemma found_step n clauses db steps c w l : found n clauses db steps -> c ∉ db -> (lvar l < n)%nat -> c = [negated l] -> is_pr n db c w = Some true ->
  found n clauses (db ++ [c]) (steps ++ [SPr c w]).
Proof.
  intros F N L -> P. destruct F as [F1 F2 [F3 F4] F5 F6]. assert (Nc : [negated l] ∉ clauses) by (intros H; apply N; rewrite F1; apply elem_of_app; auto). constructor.
  - rewrite F1 at 1. rewrite map_app, app_assoc. reflexivity.
  - intros s Hs. apply elem_of_app in Hs as [Hs | Hs]; [exact (F2 s Hs)|]. apply elem_of_list_singleton in Hs as ->. eauto.
  - split.
    + rewrite map_app. cbn [map step_clause]. apply NoDup_app. split; [exact F3|]. split; [|apply NoDup_singleton]. intros d Hd E. apply elem_of_list_singleton in E as ->. apply N. rewrite F1. apply elem_of_app. auto.
    + intros s Hs. apply elem_of_app in Hs as [Hs | Hs]; [exact (F4 s Hs)|]. apply elem_of_list_singleton in Hs as ->. exact Nc.
  - rewrite F5. split; [exact (C73_step_sound n db _ w P)|]. intros [f Sf]. exists f. intros d Hd. apply Sf, elem_of_app. auto.
  - intros rest. rewrite <- app_assoc, F6. cbn [app check_pr_refutation]. rewrite P. reflexivity.
Qed.
Lemma discover_found n solve gens clauses fuel : forall db steps db' steps', found n clauses db steps -> discover fuel n solve gens db steps = Some (db', steps') ->
  found n clauses db' steps' /\ ((length steps' = length steps + fuel)%nat \/ probe n solve db' (gens db') (probes n) = Some None).
Proof.
  induction fuel as [|fuel IH]; intros db steps db' steps' F; cbn [discover]; [intros [= <- <-]; split; [exact F|left; lia]|].
  destruct (probe n solve db (gens db) (probes n)) as [[[c w]|]|] eqn:P; [| |discriminate].
  - intros H. destruct (probe_some _ _ _ _ _ _ _ P) as (N & l & Hl & E & Pr). apply probes_elem in Hl. apply IH in H as [A B]; [|exact (found_step n clauses db steps c w l F N Hl E Pr)].
    split; [exact A|]. rewrite app_length in B. cbn in B. destruct B as [B | B]; [left; lia|right; exact B].
  - intros [= <- <-]. split; [exact F|right; exact P].
Qed.
(** The discovered clauses are new distinct units, accepted one after the other by the checker; they preserve
    satisfiability.  At most two per variable are found, so the cap never stops the search: it ends when no literal
    yields a new clause. *)
Theorem C128_discover n solve gens clauses db steps : sdcl_discover n solve gens clauses = Some (db, steps) ->
  db = clauses ++ map step_clause steps /\
  (forall s, s ∈ steps -> exists l w, s = SPr [negated l] w /\ (lvar l < n)%nat) /\
  NoDup (map step_clause steps) /\ (forall s, s ∈ steps -> step_clause s ∉ clauses) /\
  ((exists f, satisfies f clauses) <-> (exists f, satisfies f db)) /\
  (forall rest, check_pr_refutation n clauses (steps ++ rest) = check_pr_refutation n db rest) /\
  (length steps <= 2 * n)%nat /\
  (forall l, (lvar l < n)%nat -> find_unified n solve db [l] (gens db) = Some None \/ exists w, find_unified n solve db [l] (gens db) = Some (Some ([negated l], w)) /\ [negated l] ∈ db).
Proof.
  intros H. unfold sdcl_discover in H. assert (F0 : found n clauses clauses []).
  { constructor; cbn; [rewrite app_nil_r; reflexivity|intros s Hs; apply elem_of_nil in Hs; contradiction|split; [constructor|intros s Hs; apply elem_of_nil in Hs; contradiction]|reflexivity|reflexivity]. }
  destruct (discover_found n solve gens clauses _ _ _ _ _ F0 H) as [F E]. pose proof (found_bound _ _ _ _ F) as B. destruct F as [F1 F2 [F3 F4] F5 F6].
  split; [exact F1|]. split; [exact F2|]. split; [exact F3|]. split; [exact F4|]. split; [exact F5|]. split; [exact F6|]. split; [exact B|].
  destruct E as [E | E]; [exfalso; cbn [length] in E; nia|]. intros l Hl. apply (probe_none n solve db (gens db) (probes n) E), probes_elem, Hl.
Qed.

(** ** The certified solver *)
(** [solve] is right on [db]: a model is one, and there is none if it reports none. *)
Definition right_on (solve : solver) (d : list clause) : Prop :=
  match fst (solve d) with Some model => satisfies (fun v => nth v model false) d | None => ~ exists f, satisfies f d end.
(** Any returned composed proof checks; the verdicts are right whenever the solver is right on the final database.  The
    composed proof is refused only if the solver's learned clauses are no refutation of that database. *)
Theorem C128_solve n solve gens clauses o : solve_certified n solve gens clauses = Some o ->
  exists db steps, sdcl_discover n solve gens clauses = Some (db, steps) /\
  match o with
  | Sat model => fst (solve db) = Some model /\ (right_on solve db -> satisfies (fun v => nth v model false) clauses)
  | Unsat proof k =>
      fst (solve db) = None /\ (right_on solve db -> ~ exists f, satisfies f clauses) /\
      ((proof = steps ++ map SRup (snd (solve db)) /\ k = length steps /\ check_pr_refutation n clauses proof = Some true /\ ~ exists f, satisfies f clauses) \/
       (proof = map SRup (snd (solve clauses)) /\ k = 0%nat /\ check_pr_refutation n db (map SRup (snd (solve db))) = Some false))
  end.
Proof.
  unfold solve_certified. destruct (sdcl_discover n solve gens clauses) as [[db steps]|] eqn:D; [|discriminate]. destruct (C128_discover _ _ _ _ _ _ D) as (E & _ & _ & _ & S & R & _).
  intros H. exists db, steps. split; [reflexivity|]. destruct (solve db) as [[model|] learned] eqn:V.
  - injection H as <-. unfold right_on. rewrite V. split; [reflexivity|]. cbn [fst]. intros M c Hc. apply M. rewrite E. apply elem_of_app. auto.
  - assert (W : right_on solve db -> ~ exists f, satisfies f clauses) by (unfold right_on; rewrite V; cbn [fst]; rewrite S; auto).
    destruct (check_pr_refutation n clauses (steps ++ map SRup learned)) as [[|]|] eqn:C; [| |discriminate]; injection H as <-; (split; [reflexivity|]; split; [exact W|]).
    + left. split; [reflexivity|]. split; [reflexivity|]. split; [exact C|]. exact (C73_refutation_sound n clauses _ C).
    + right. split; [reflexivity|]. split; [reflexivity|]. rewrite <- R. exact C.
Qed.
Theorem C128_refute n solve gens clauses b k proof : sdcl_refute n solve gens clauses = Some (b, k, proof) ->
  exists db steps, sdcl_discover n solve gens clauses = Some (db, steps) /\
  (right_on solve db -> (b = true <-> ~ exists f, satisfies f clauses)) /\
  (b = true -> check_pr_refutation n clauses proof = Some true \/ (k = 0%nat /\ proof = map SRup (snd (solve clauses)) /\ check_pr_refutation n db (map SRup (snd (solve db))) = Some false)).
Proof.
  unfold sdcl_refute. destruct (sdcl_discover n solve gens clauses) as [[db steps]|] eqn:D; [|discriminate]. destruct (C128_discover _ _ _ _ _ _ D) as (E & _ & _ & _ & S & R & _).
  intros H. exists db, steps. split; [reflexivity|]. unfold right_on. destruct (solve db) as [[model|] learned] eqn:V; cbn [fst snd].
  - injection H as <- <- <-. split; [|discriminate]. intros M. split; [discriminate|]. intros N. exfalso. apply N, S. eexists. exact M.
  - destruct (check_pr_refutation n clauses (steps ++ map SRup learned)) as [[|]|] eqn:C; [| |discriminate]; injection H as <- <- <-; (split; [rewrite S; tauto|]); intros _.
    + left. exact C.
    + right. split; [reflexivity|]. split; [reflexivity|]. rewrite <- R. exact C.
Qed.

(** ** Examples *)
(** Brute force over two variables. *)
Definition value (m : list bool) (d : list clause) : bool := forallb (existsb (fun l => eqb (nth (lvar l) m false) (lpos l))) d.
Definition brute (learned : list clause) : solver := fun d => (List.find (fun m => value m d) [[true; true]; [true; false]; [false; true]; [false; false]], learned).
Definition four_clauses : list clause := [[Lit 0 true; Lit 1 true]; [Lit 0 true; Lit 1 false]; [Lit 0 false; Lit 1 true]; [Lit 0 false; Lit 1 false]].
Example C128_example :
  solve_certified 2 (brute [[Lit 0 true]]) (fun _ => []) four_clauses = Some (Unsat [SRup [Lit 0 true]] 0) /\
  sdcl_discover 2 (brute []) (fun _ => []) [[Lit 0 true; Lit 1 true]; [Lit 0 true; Lit 1 false]] = Some ([[Lit 0 true; Lit 1 true]; [Lit 0 true; Lit 1 false]; [Lit 0 true]; [Lit 1 false]],
    [SPr [Lit 0 true] (WAssignment [Lit 0 true]); SPr [Lit 1 false] (WAssignment [Lit 0 true; Lit 1 false])]) /\
  check_pr_refutation 2 four_clauses [SRup [Lit 0 true]] = Some true.
Proof. split; [vm_compute; reflexivity|]. split; vm_compute; reflexivity. Qed.
(** The fallback proof is returned without a check: a solver with right verdicts but an incomplete log of learned
    clauses makes [solve_certified] return a proof that the checker refuses. *)
Theorem C128_fallback_refuted : exists n solve gens clauses proof, (right_on solve clauses /\ forall db steps, sdcl_discover n solve gens clauses = Some (db, steps) -> right_on solve db) /\
  solve_certified n solve gens clauses = Some (Unsat proof 0) /\ check_pr_refutation n clauses proof = Some false.
Proof.
  exists 2%nat, (brute []), (fun _ => []), four_clauses, []. assert (R : right_on (brute []) four_clauses).
  { unfold right_on. assert (E : fst (brute [] four_clauses) = None) by (vm_compute; reflexivity). rewrite E. apply (C73_refutation_sound 2 four_clauses [SRup [Lit 0 true]]). vm_compute. reflexivity. }
  split; [|split; vm_compute; reflexivity]. split; [exact R|]. intros db steps H. assert (E : sdcl_discover 2 (brute []) (fun _ => []) four_clauses = Some (four_clauses, [])) by (vm_compute; reflexivity).
  rewrite E in H. injection H as <- <-. exact R.
Qed.
