(** C111: certified inprocessing preserves satisfiability and its proof steps are accepted. *)
From Coq Require Import List Arith Bool Lia.
From stdpp Require Import list list_numbers sorting.
From Verif Require Import RupModel RupProofs RupProps PrModel PrProofs PrProps InprModel InprProofs.

(** The resolvent has exactly the literals of the parents on other variables; it is left out
    exactly when two of these are complementary. *)
Theorem C111_resolve a b x :
  match resolve a b x with
  | Some r => (forall l, l ∈ r <-> (l ∈ a \/ l ∈ b) /\ lvar l <> x) /\ forall l, l ∈ r -> negated l ∉ r
  | None => exists l, (l ∈ a \/ l ∈ b) /\ (negated l ∈ a \/ negated l ∈ b) /\ lvar l <> x
  end.
Proof. destruct (resolve a b x) as [r |] eqn:E; [exact (resolve_some _ _ _ _ E) | exact (resolve_none _ _ _ E)]. Qed.

(** Every model of the reduced clauses becomes a model of the input by choosing the value of the
    eliminated variable only, for all inputs. *)
Theorem C111_eliminate_extends cs x new steps f : eliminate_variable cs x = Some (new, steps) -> satisfies f new ->
  exists g, satisfies g cs /\ forall y, y <> x -> g y = f y.
Proof.
  intros E Sat. destruct (eliminate_eq _ _ _ _ E) as (-> & _). destruct (reduct_up f x cs Sat) as [v V]. exists (set_var f x v). split; [exact V |]. intros y N. unfold set_var. destruct (Nat.eqb_spec y x); [contradiction | reflexivity].
Qed.
(** If no clause has both [x] and [¬x]: every model is kept, the number of clauses does not grow,
    and the variable, which did occur, is gone. *)
Theorem C111_eliminate cs x new steps : (forall c, c ∈ cs -> ~ (Lit x true ∈ c /\ Lit x false ∈ c)) -> eliminate_variable cs x = Some (new, steps) ->
  (forall f, satisfies f cs -> satisfies f new) /\ (length new <= length cs)%nat /\
  (exists c l, c ∈ cs /\ l ∈ c /\ lvar l = x) /\ (forall c l, c ∈ new -> l ∈ c -> lvar l <> x) /\
  (forall c, c ∈ cs -> (forall l, l ∈ c -> lvar l <> x) -> c ∈ new).
Proof.
  intros N E. pose proof (eliminate_count cs x new steps N E) as L. destruct (eliminate_eq _ _ _ _ E) as (-> & _ & _ & (c & Hc & H)).
  split; [intros f; apply (reduct_down f x cs N) |]. split; [exact L |]. split; [destruct H as [H | H]; exists c; eexists; (split; [exact Hc |]); (split; [exact H | reflexivity]) |]. split.
  - intros d l Hd Hl V. apply (reduct_gone x cs d Hd). exists l. tauto.
  - intros d Hd H'. apply reduct_elem. left. split; [exact Hd |]. intros (l & Hl & V). exact (H' l Hl V).
Qed.
(** The steps are accepted one by one by the checker, and leave exactly the reduced clauses up to
    order (and the order of literals): whatever follows is checked against them. *)
Theorem C111_eliminate_steps n cs x new steps : db_in_range n cs -> (forall c, c ∈ cs -> ~ (Lit x true ∈ c /\ Lit x false ∈ c)) ->
  eliminate_variable cs x = Some (new, steps) ->
  exists db, (forall rest, check_pr_refutation n cs (steps ++ rest) = check_pr_refutation n db rest) /\ map clause_key db ≡ₚ map clause_key new.
Proof.
  intros R N E. destruct (eliminate_eq _ _ _ _ E) as (-> & -> & _). apply (reduct_runs n x cs cs R N). unfold same_db. reflexivity.
Qed.
(** The documented "verdict-invariant" fails for a clause with both literals: it is resolved with
    itself, which turns a satisfiable formula into one with the empty clause; the steps are then
    not accepted. *)
Theorem C111_eliminate_refuted : exists n cs x new steps f, eliminate_variable cs x = Some (new, steps) /\ satisfies f cs /\ db_in_range n cs /\ [] ∈ new /\
  check_pr_refutation n cs steps = Some false.
Proof.
  exists 1%nat, [[Lit 0 true; Lit 0 false]], 0%nat, [[]], [SRup []; SDelete [Lit 0 true; Lit 0 false]; SDelete [Lit 0 true; Lit 0 false]], (fun _ => true). split; [reflexivity |]. split; [| split; [| split; [left | reflexivity]]].
  - intros c Hc. apply elem_of_list_singleton in Hc as ->. exists (Lit 0 true). split; [left | reflexivity].
  - intros c Hc l Hl. apply elem_of_list_singleton in Hc as ->. rewrite !elem_of_cons, elem_of_nil in Hl. destruct Hl as [-> | [-> | []]]; cbn; lia.
Qed.

(** ** Bounded variable elimination *)
Theorem C111_bve n cs new steps : taut_free cs -> db_in_range n cs -> bve n cs = (new, steps) ->
  (forall f, satisfies f cs -> satisfies f new) /\ (forall f, satisfies f new -> exists g, satisfies g cs) /\ (length new <= length cs)%nat /\
  (exists db, (forall rest, check_pr_refutation n cs (steps ++ rest) = check_pr_refutation n db rest) /\ map clause_key db ≡ₚ map clause_key new) /\
  ([] ∈ new -> check_pr_refutation n cs steps = Some true).
Proof.
  intros T R E. pose proof (bve_passes_good n n cs 4 cs [] new steps (good_refl n cs T R) E) as G. pose proof (bve_passes_count 4 n cs [] new steps T E) as L. destruct G as [gt gr gd gu gs] eqn:EG.
  split; [exact gd |]. split; [exact gu |]. split; [exact L |]. split; [apply gs; unfold same_db; reflexivity | intros H; apply (good_refutes n cs steps new); [split; assumption | exact H]].
Qed.
(** The result is at a fixpoint unless all four passes changed something: a formula for which no
    variable can be eliminated is returned as it is. *)
Theorem C111_bve_fixed n cs : (forall x, (x < n)%nat -> eliminate_variable cs x = None) -> bve n cs = (cs, []).
Proof.
  intros H. unfold bve. cbn [bve_passes]. assert (forall vars ch, (forall x, x ∈ vars -> (x < n)%nat) -> bve_pass vars cs [] ch = (cs, [], ch)) as P.
  { induction vars as [| x vars IH]; intros ch L; cbn [bve_pass]; [reflexivity |]. rewrite H by (apply L; left). apply IH. intros y Hy. apply L. right. exact Hy. }
  rewrite P; [reflexivity |]. intros x Hx. apply elem_of_seq in Hx. lia.
Qed.

(** ** Bucket elimination *)
Theorem C111_bucket_sound n cs w p s steps : taut_free cs -> db_in_range n cs -> bucket_elimination_refute n cs w p s = Some steps ->
  check_pr_refutation n cs steps = Some true /\ ~ exists f, satisfies f cs.
Proof.
  intros T R E. destruct (bucket_good n cs w p s _ cs [] steps (good_refl n cs T R) E) as (fin & G & H). pose proof (good_refutes n cs steps fin G H) as C. split; [exact C | exact (C73_refutation_sound n cs steps C)].
Qed.
(** It gives up only because of its bounds: every unsatisfiable formula has bounds from which on a
    refutation is returned. *)
Theorem C111_bucket_complete n cs : db_in_range n cs -> (~ exists f, satisfies f cs) ->
  exists W P S, forall w p s, (W <= w)%nat -> (P <= p)%nat -> (S <= s)%nat -> exists steps, bucket_elimination_refute n cs w p s = Some steps.
Proof.
  intros R U. destruct (bucket_complete (S n) cs) as (W & P & Sz & H); [pose proof (vars_of_len n cs R); lia | intros f Sat; apply U; exists f; exact Sat |]. exists W, P, Sz. intros w p s. apply H.
Qed.
(** A tautological clause makes it return a refutation of a satisfiable formula. *)
Theorem C111_bucket_refuted : exists n cs f, db_in_range n cs /\ satisfies f cs /\
  forall w p s, (1 <= p)%nat -> (1 <= s)%nat -> exists steps, bucket_elimination_refute n cs w p s = Some steps /\ check_pr_refutation n cs steps = Some false.
Proof.
  exists 1%nat, [[Lit 0 true; Lit 0 false]], (fun _ => true). split; [| split].
  - intros c Hc l Hl. apply elem_of_list_singleton in Hc as ->. rewrite !elem_of_cons, elem_of_nil in Hl. destruct Hl as [-> | [-> | []]]; cbn; lia.
  - intros c Hc. apply elem_of_list_singleton in Hc as ->. exists (Lit 0 true). split; [left | reflexivity].
  - intros w [| p] [| s] Hp Hs; try lia. exists [SRup []; SDelete [Lit 0 true; Lit 0 false]; SDelete [Lit 0 true; Lit 0 false]]. split; reflexivity.
Qed.

(** ** Vivification *)
Theorem C111_vivify_clause n db c c2 : vivify_clause n db c = Some (Some c2) ->
  c2 `sublist_of` c /\ (length c2 < length c)%nat /\ (c <> [] -> c2 <> []) /\ is_rup n db c2 = Some true /\ forall f, satisfies f db -> clause_true f c2.
Proof.
  intros E. destruct (vivify_loop_spec n db c (length c) c 0 false c2) as (S & Ne & L & R); [reflexivity | auto | discriminate | exact E |]. split; [exact S |]. split; [exact L |]. split; [exact Ne |]. split; [exact R |]. intros f. exact (C37_step_sound n db c2 f R).
Qed.
(** When vivification leaves a clause alone, no single literal can be dropped from it by unit propagation. *)
Lemma vivify_loop_none n db fuel : forall cur i imp, (length cur - i <= fuel)%nat -> vivify_loop fuel n db cur i imp = Some None ->
  imp = false /\ ((length cur <= 1)%nat \/ forall j, (i <= j < length cur)%nat -> is_rup n db (delete j cur) = Some false).
Proof.
  induction fuel as [| fuel IH]; intros cur i imp L; cbn [vivify_loop].
  - destruct imp; [discriminate |]. intros _. split; [reflexivity |]. right. intros j Hj. lia.
  - destruct (Nat.ltb_spec 1 (length cur)) as [L1 | L1]; cbn [andb].
    + destruct (Nat.ltb_spec i (length cur)) as [L2 | L2].
      * destruct (is_rup n db (delete i cur)) as [[|] |] eqn:R; [| | discriminate].
        -- intros E. apply IH in E as [E _]; [discriminate |]. rewrite length_delete by (apply lookup_lt_is_Some_2; exact L2). lia.
        -- intros E. apply IH in E as [-> E]; [| lia]. split; [reflexivity |]. destruct E as [E | E]; [lia |]. right. intros j Hj.
           destruct (Nat.eq_dec j i) as [-> | Ne]; [exact R |]. apply E. lia.
      * destruct imp; [discriminate |]. intros _. split; [reflexivity |]. right. intros j Hj. lia.
    + destruct imp; [discriminate |]. intros _. split; [reflexivity |]. left. exact L1.
Qed.
Theorem C111_vivify_clause_none n db c : vivify_clause n db c = Some None ->
  (length c <= 1)%nat \/ forall j, (j < length c)%nat -> is_rup n db (delete j c) = Some false.
Proof.
  intros E. apply vivify_loop_none in E as [_ [E | E]]; [left; exact E | right; intros j Hj; apply E; lia | lia].
Qed.
(** Vivification of a whole database never panics on variables in range, keeps exactly the same
    models, only removes literals, never produces a new empty clause, and its steps are accepted. *)
Theorem C111_vivify n cs : db_in_range n cs -> exists new steps, vivify n cs = Some (new, steps) /\
  (forall f, satisfies f cs <-> satisfies f new) /\ Forall2 (fun r c => r `sublist_of` c /\ (c <> [] -> r <> [])) new cs /\
  exists db, (forall rest, check_pr_refutation n cs (steps ++ rest) = check_pr_refutation n db rest) /\ map clause_key db ≡ₚ map clause_key new.
Proof.
  intros R. destruct (vivify_from_spec n cs (seq 0 (length cs)) cs []) as (new & steps & E & [Rn Sub M Run]); [intros i Hi; apply elem_of_seq in Hi; lia | apply viv_refl, R |].
  exists new, steps. split; [exact E |]. split; [exact M |]. split; [exact Sub |]. apply Run. unfold same_db. reflexivity.
Qed.

(** ** Examples *)
Definition p0 := Lit 0 true. Definition n0 := Lit 0 false. Definition p1 := Lit 1 true. Definition n1 := Lit 1 false. Definition p2 := Lit 2 true.
Example C111_example :
  eliminate_variable [[p0; p1]; [n0; p2]; [p1; p2]] 0 = Some ([[p1; p2]; [p1; p2]], [SRup [p1; p2]; SDelete [p0; p1]; SDelete [n0; p2]]) /\
  eliminate_variable [[p1; p2]] 0 = None /\ resolve [p0; p1] [n0; n1] 0 = None /\
  (let (new, steps) := bve 2 [[p0; p1]; [p0; n1]; [n0; p1]; [n0; n1]] in new = [[]] /\ check_pr_refutation 2 [[p0; p1]; [p0; n1]; [n0; p1]; [n0; n1]] steps = Some true) /\
  vivify 3 [[p0; p1; p2]; [n1; p0]] = Some ([[p0; p2]; [n1; p0]], [SRup [p0; p2]; SDelete [p0; p1; p2]]) /\
  is_Some (bucket_elimination_refute 2 [[p0; p1]; [p0; n1]; [n0; p1]; [n0; n1]] 2 10 10) /\ bucket_elimination_refute 2 [[p0; p1]; [p0; n1]; [n0; p1]; [n0; n1]] 0 10 10 = None.
Proof. vm_compute. repeat split; eauto. Qed.
Example C111_vivify_clause_none_example : vivify_clause 3 [[n1; p0]; [p1; p2]] [n1; p0] = Some None /\ (1 < length [n1; p0])%nat.
Proof. split; [vm_compute; reflexivity | cbn; lia]. Qed.
