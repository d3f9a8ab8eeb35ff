(** Lemmas about certified inprocessing. *)
From Coq Require Import List Arith Bool Lia.
From stdpp Require Import list list_numbers sorting.
From Verif Require Import RupModel RupProofs RupProps PrModel PrProofs InprModel.

(** ** Resolution *)
Lemma has_iff l c : has l c = true <-> l ∈ c.
Proof. unfold has. apply bool_decide_eq_true. Qed.
Lemma fold_push x b : forall r l, l ∈ fold_left (fun r l => if negb (Nat.eqb (lvar l) x) && negb (has l r) then r ++ [l] else r) b r <-> l ∈ r \/ (l ∈ b /\ lvar l <> x).
Proof.
  induction b as [| k b IH]; intros r l; cbn [fold_left]; [rewrite elem_of_nil; tauto |]. rewrite IH, elem_of_cons. destruct (Nat.eqb_spec (lvar k) x) as [E | E]; cbn [negb andb].
  - split; [tauto |]. intros [? | [[-> | ?] ?]]; tauto.
  - destruct (has k r) eqn:H; cbn [negb].
    + apply has_iff in H. split; [tauto |]. intros [? | [[-> | ?] ?]]; tauto.
    + rewrite elem_of_app, elem_of_list_singleton. split; [intros [[? | ->] | ?]; tauto |]. intros [? | [[-> | ?] ?]]; tauto.
Qed.
Lemma resolvent_elem a b x l : l ∈ resolvent a b x <-> (l ∈ a \/ l ∈ b) /\ lvar l <> x.
Proof. unfold resolvent. rewrite fold_push, elem_of_list_In, filter_In, negb_true_iff, Nat.eqb_neq, <- elem_of_list_In. tauto. Qed.
Lemma resolve_some a b x r : resolve a b x = Some r -> (forall l, l ∈ r <-> (l ∈ a \/ l ∈ b) /\ lvar l <> x) /\ forall l, l ∈ r -> negated l ∉ r.
Proof.
  unfold resolve. destruct (existsb _ _) eqn:E; [discriminate |]. intros [= <-]. split; [intros l; apply resolvent_elem |]. intros l Hl K.
  assert (existsb (fun l => has (negated l) (resolvent a b x)) (resolvent a b x) = true) as T; [| congruence]. apply existsb_exists. exists l. split; [apply elem_of_list_In; exact Hl | apply has_iff; exact K].
Qed.
Lemma resolve_none a b x : resolve a b x = None -> exists l, (l ∈ a \/ l ∈ b) /\ (negated l ∈ a \/ negated l ∈ b) /\ lvar l <> x.
Proof.
  unfold resolve. destruct (existsb _ _) eqn:E; [| discriminate]. intros _. apply existsb_exists in E as (l & Hl & K). apply elem_of_list_In, resolvent_elem in Hl. apply has_iff, resolvent_elem in K. exists l. tauto.
Qed.
Lemma with_lit_elem l cs c : c ∈ with_lit l cs <-> c ∈ cs /\ l ∈ c.
Proof. unfold with_lit. rewrite elem_of_list_In, filter_In, has_iff, <- elem_of_list_In. reflexivity. Qed.
Lemma resolvents_elem pos neg x r : r ∈ resolvents pos neg x <-> exists a b, a ∈ pos /\ b ∈ neg /\ resolve a b x = Some r.
Proof.
  unfold resolvents. rewrite elem_of_list_In, in_flat_map. split.
  - intros (a & Ha & H). apply in_flat_map in H as (b & Hb & H). exists a, b. rewrite !elem_of_list_In. split; [exact Ha |]. split; [exact Hb |]. destruct (resolve a b x) as [r' |]; [| destruct H]. destruct H as [-> | []]. reflexivity.
  - intros (a & b & Ha & Hb & E). exists a. split; [apply elem_of_list_In; exact Ha |]. apply in_flat_map. exists b. split; [apply elem_of_list_In; exact Hb |]. rewrite E. left. reflexivity.
Qed.
Lemma without_elem x cs c : c ∈ without_var x cs <-> c ∈ cs /\ Lit x true ∉ c /\ Lit x false ∉ c.
Proof.
  unfold without_var. rewrite elem_of_list_In, filter_In, andb_true_iff, !negb_true_iff, <- elem_of_list_In. unfold has. rewrite !bool_decide_eq_false. reflexivity.
Qed.
Lemma lit_of l x : lvar l = x -> l = Lit x true \/ l = Lit x false.
Proof. destruct l as [v []]; cbn; intros ->; tauto. Qed.

(** The result of eliminating [x]. *)
Definition reduct (x : nat) (cs : list clause) : list clause := without_var x cs ++ resolvents (with_lit (Lit x true) cs) (with_lit (Lit x false) cs) x.
Definition reduct_steps (x : nat) (cs : list clause) : list step :=
  elim_steps (with_lit (Lit x true) cs) (with_lit (Lit x false) cs) (resolvents (with_lit (Lit x true) cs) (with_lit (Lit x false) cs) x).
Lemma eliminate_eq cs x new steps : eliminate_variable cs x = Some (new, steps) -> new = reduct x cs /\ steps = reduct_steps x cs /\
  (length new <= length (without_var x cs) + length (with_lit (Lit x true) cs) + length (with_lit (Lit x false) cs))%nat /\ exists c, c ∈ cs /\ (Lit x true ∈ c \/ Lit x false ∈ c).
Proof.
  unfold eliminate_variable. destruct (Nat.eqb _ 0 && Nat.eqb _ 0) eqn:Z; [discriminate |]. destruct (Nat.ltb_spec (length (with_lit (Lit x true) cs) + length (with_lit (Lit x false) cs)) (length (resolvents (with_lit (Lit x true) cs) (with_lit (Lit x false) cs) x))) as [L | L]; [discriminate |].
  intros [= <- <-]. split; [reflexivity |]. split; [reflexivity |]. split; [rewrite app_length; lia |]. apply andb_false_iff in Z as [Z | Z]; apply Nat.eqb_neq in Z.
  - destruct (with_lit (Lit x true) cs) as [| c l] eqn:E; [destruct (Z eq_refl) |]. exists c. assert (c ∈ with_lit (Lit x true) cs) as H by (rewrite E; left). apply with_lit_elem in H. tauto.
  - destruct (with_lit (Lit x false) cs) as [| c l] eqn:E; [destruct (Z eq_refl) |]. exists c. assert (c ∈ with_lit (Lit x false) cs) as H by (rewrite E; left). apply with_lit_elem in H. tauto.
Qed.

(** No clause contains both [x] and [¬x]; no clause contains a literal and its negation. *)
Definition not_both (x : nat) (cs : list clause) : Prop := forall c, c ∈ cs -> ~ (Lit x true ∈ c /\ Lit x false ∈ c).
Definition taut_free (cs : list clause) : Prop := forall c l, c ∈ cs -> l ∈ c -> negated l ∉ c.
Lemma taut_free_both x cs : taut_free cs -> not_both x cs.
Proof. intros T c Hc [A B]. exact (T c (Lit x true) Hc A B). Qed.
Definition mentions_var (x : nat) (c : clause) : Prop := exists l, l ∈ c /\ lvar l = x.
Lemma reduct_elem x cs c : c ∈ reduct x cs <-> (c ∈ cs /\ ~ mentions_var x c) \/ exists a b, a ∈ cs /\ Lit x true ∈ a /\ b ∈ cs /\ Lit x false ∈ b /\ resolve a b x = Some c.
Proof.
  unfold reduct. rewrite elem_of_app, without_elem, resolvents_elem. split.
  - intros [(H & A & B) | (a & b & Ha & Hb & E)].
    + left. split; [exact H |]. intros (l & Hl & V). destruct (lit_of l x V) as [-> | ->]; contradiction.
    + right. apply with_lit_elem in Ha, Hb. exists a, b. tauto.
  - intros [[H N] | (a & b & Ha & A & Hb & B & E)].
    + left. split; [exact H |]. split; intros K; apply N; eexists; (split; [exact K | reflexivity]).
    + right. exists a, b. rewrite !with_lit_elem. tauto.
Qed.
Lemma reduct_gone x cs c : c ∈ reduct x cs -> ~ mentions_var x c.
Proof. intros H. apply reduct_elem in H as [[_ N] | (a & b & _ & _ & _ & _ & E)]; [exact N |]. intros (l & Hl & V). apply (proj1 (resolve_some _ _ _ _ E)) in Hl. tauto. Qed.
Lemma reduct_taut_free x cs : taut_free cs -> taut_free (reduct x cs).
Proof. intros T c l Hc Hl. apply reduct_elem in Hc as [[Hc _] | (a & b & _ & _ & _ & _ & E)]; [exact (T c l Hc Hl) | exact (proj2 (resolve_some _ _ _ _ E) l Hl)]. Qed.
Lemma reduct_range n x cs : db_in_range n cs -> db_in_range n (reduct x cs).
Proof.
  intros R c Hc l Hl. apply reduct_elem in Hc as [[Hc _] | (a & b & Ha & _ & Hb & _ & E)]; [exact (R c Hc l Hl) |]. apply (proj1 (resolve_some _ _ _ _ E)) in Hl as [[Hl | Hl] _]; [exact (R a Ha l Hl) | exact (R b Hb l Hl)].
Qed.

(** ** Models *)
Lemma resolve_sound f a b x r : ~ Lit x false ∈ a -> ~ Lit x true ∈ b -> resolve a b x = Some r -> clause_true f a -> clause_true f b -> clause_true f r.
Proof.
  intros Na Nb E (l & Hl & Tl) (k & Hk & Tk). destruct (resolve_some _ _ _ _ E) as [S _].
  destruct (Nat.eq_dec (lvar l) x) as [V | V]; [| exists l; split; [apply S; tauto | exact Tl]].
  destruct (Nat.eq_dec (lvar k) x) as [W | W]; [| exists k; split; [apply S; tauto | exact Tk]].
  destruct (lit_of l x V) as [-> | ->]; [| contradiction]. destruct (lit_of k x W) as [-> | ->]; [contradiction |]. unfold lit_true in *. cbn in *. congruence.
Qed.
Lemma reduct_down f x cs : not_both x cs -> satisfies f cs -> satisfies f (reduct x cs).
Proof.
  intros N Sat c Hc. apply reduct_elem in Hc as [[Hc _] | (a & b & Ha & A & Hb & B & E)]; [exact (Sat c Hc) |].
  apply (resolve_sound f a b x c); [intros K; exact (N a Ha (conj A K)) | intros K; exact (N b Hb (conj K B)) | exact E | apply Sat, Ha | apply Sat, Hb].
Qed.
Definition set_var (f : nat -> bool) (x : nat) (v : bool) (y : nat) : bool := if Nat.eqb y x then v else f y.
Lemma set_other f x v l : lvar l <> x -> lit_true (set_var f x v) l <-> lit_true f l.
Proof. intros N. unfold lit_true, set_var. destruct (Nat.eqb_spec (lvar l) x); [contradiction | reflexivity]. Qed.
Definition rest_true (f : nat -> bool) (x : nat) (c : clause) : bool := existsb (fun l => negb (Nat.eqb (lvar l) x) && Bool.eqb (f (lvar l)) (lpos l)) c.
Lemma rest_true_iff f x c : rest_true f x c = true <-> exists l, l ∈ c /\ lvar l <> x /\ lit_true f l.
Proof.
  unfold rest_true. rewrite existsb_exists. split; intros (l & Hl & H); exists l.
  - apply andb_true_iff in H as [A B]. apply negb_true_iff, Nat.eqb_neq in A. apply eqb_prop in B. rewrite elem_of_list_In. tauto.
  - rewrite elem_of_list_In in Hl. split; [exact Hl |]. apply andb_true_iff. rewrite negb_true_iff, Nat.eqb_neq. destruct H as [A ->]. split; [exact A | apply eqb_reflx].
Qed.
Lemma reduct_up f x cs : satisfies f (reduct x cs) -> exists v, satisfies (set_var f x v) cs.
Proof.
  intros Sat. assert (Keep : forall v c, c ∈ cs -> rest_true f x c = true -> clause_true (set_var f x v) c).
  { intros v c Hc T. apply rest_true_iff in T as (l & Hl & V & T). exists l. split; [exact Hl | apply set_other; assumption]. }
  assert (Un : forall v c, c ∈ cs -> ~ mentions_var x c -> clause_true (set_var f x v) c).
  { intros v c Hc N. destruct (Sat c) as (l & Hl & T); [apply reduct_elem; left; tauto |]. exists l. split; [exact Hl |]. apply set_other; [intros E; apply N; exists l; tauto | exact T]. }
  destruct (forallb (rest_true f x) (with_lit (Lit x true) cs)) eqn:All.
  - exists false. rewrite forallb_forall in All. intros c Hc. destruct (decide (Lit x false ∈ c)) as [B | B].
    + exists (Lit x false). split; [exact B |]. unfold lit_true, set_var. cbn. rewrite Nat.eqb_refl. reflexivity.
    + destruct (decide (Lit x true ∈ c)) as [A | A].
      * apply (Keep false c Hc), All, elem_of_list_In, with_lit_elem. tauto.
      * apply (Un false c Hc). intros (l & Hl & V). destruct (lit_of l x V) as [-> | ->]; contradiction.
  - exists true. assert (exists a, a ∈ cs /\ Lit x true ∈ a /\ rest_true f x a = false) as (a & Ha & A & Fa).
    { clear -All. unfold with_lit in All. induction cs as [| c cs IH]; cbn [List.filter forallb] in All; [discriminate |]. destruct (has (Lit x true) c) eqn:H; cbn [forallb] in All.
      - destruct (rest_true f x c) eqn:R; cbn [andb] in All; [| exists c; rewrite has_iff in H; split; [left | tauto]]. destruct (IH All) as (a & Ha & K). exists a. split; [right; exact Ha | exact K].
      - destruct (IH All) as (a & Ha & K). exists a. split; [right; exact Ha | exact K]. }
    intros c Hc. destruct (decide (Lit x true ∈ c)) as [B | B].
    + exists (Lit x true). split; [exact B |]. unfold lit_true, set_var. cbn. rewrite Nat.eqb_refl. reflexivity.
    + destruct (decide (Lit x false ∈ c)) as [C | C].
      * apply (Keep true c Hc), rest_true_iff. assert (Fl : forall l, l ∈ a -> lvar l <> x -> lit_true f l -> False).
        { intros l Hl V T. assert (rest_true f x a = true); [apply rest_true_iff; exists l; tauto | congruence]. }
        destruct (resolve a c x) as [r |] eqn:E.
        -- destruct (Sat r) as (l & Hl & T); [apply reduct_elem; right; exists a, c; tauto |]. apply (proj1 (resolve_some _ _ _ _ E)) in Hl as [[Hl | Hl] V]; [destruct (Fl l Hl V T) | exists l; tauto].
        -- destruct (resolve_none _ _ _ E) as (l & Hl & Hn & V). assert (lvar (negated l) <> x) as V' by (destruct l; exact V). destruct (lit_true_dec f l) as [T | T].
           ++ destruct Hl as [Hl | Hl]; [destruct (Fl l Hl V T) | exists l; tauto].
           ++ destruct Hn as [Hn | Hn]; [destruct (Fl _ Hn V' T) | exists (negated l); tauto].
      * apply (Un true c Hc). intros (l & Hl & V). destruct (lit_of l x V) as [-> | ->]; contradiction.
Qed.

(** ** The proof steps *)
(** Running [steps] from [db] is accepted and leaves the database [db']. *)
Definition runs (n : nat) (db : list clause) (steps : list step) (db' : list clause) : Prop :=
  forall rest, check_pr_refutation n db (steps ++ rest) = check_pr_refutation n db' rest.
(** The same clauses, up to their order and the order and repetition of literals. *)
Definition same_db (db db' : list clause) : Prop := map clause_key db ≡ₚ map clause_key db'.
Lemma runs_nil n db : runs n db [] db.
Proof. intros rest. reflexivity. Qed.
Lemma runs_app n db db1 db2 s1 s2 : runs n db s1 db1 -> runs n db1 s2 db2 -> runs n db (s1 ++ s2) db2.
Proof. intros A B rest. rewrite <- app_assoc, A. apply B. Qed.
Lemma same_cover db db' : same_db db db' -> forall d, d ∈ db -> exists d', d' ∈ db' /\ same_lits d d'.
Proof.
  intros P d Hd. assert (clause_key d ∈ map clause_key db') as H by (unfold same_db in P; rewrite <- P; apply elem_of_list_In, in_map, elem_of_list_In; exact Hd).
  apply elem_of_list_In, in_map_iff in H as (d' & E & Hd'). exists d'. split; [apply elem_of_list_In; exact Hd' | apply key_iff; symmetry; exact E].
Qed.
Lemma same_sym db db' : same_db db db' -> same_db db' db.
Proof. unfold same_db. intros H. symmetry. exact H. Qed.
Lemma same_range n db db' : same_db db db' -> db_in_range n db' -> db_in_range n db.
Proof. intros P R d Hd l Hl. destruct (same_cover db db' P d Hd) as (d' & Hd' & S). apply (R d' Hd' l), S, Hl. Qed.
Lemma derived_cover db db' start l : (forall d, d ∈ db -> exists d', d' ∈ db' /\ same_lits d d') -> derived db start l -> derived db' start l.
Proof.
  intros C H. induction H as [l Hl | c l Hc Hl Hk IH]; [apply d_start; exact Hl |]. destruct (C c Hc) as (d & Hd & S). apply (d_unit _ _ d); [exact Hd | apply S; exact Hl |]. intros k Kk N. apply IH; [apply S; exact Kk | exact N].
Qed.
Lemma contradiction_cover db db' start : (forall d, d ∈ db -> exists d', d' ∈ db' /\ same_lits d d') -> contradiction db start -> contradiction db' start.
Proof.
  intros C [(c & Hc & H) | (l & A & B)].
  - left. destruct (C c Hc) as (d & Hd & S). exists d. split; [exact Hd |]. intros l Hl. apply (derived_cover db db'); [exact C |]. apply H, S, Hl.
  - right. exists l. split; apply (derived_cover db db'); assumption.
Qed.
Lemma rup_accept n db c : db_in_range n db -> in_range n c -> contradiction db (neg_of c) -> is_rup n db c = Some true.
Proof. intros R Rc C. destruct (is_rup_ok n db c R Rc) as (b & E & H). rewrite E. f_equal. apply H, C. Qed.

Lemma swap_remove_perm i db d : db !! i = Some d -> db ≡ₚ d :: swap_remove i db.
Proof.
  intros H. unfold swap_remove. destruct (last db) as [e |] eqn:L; [| destruct db; [discriminate |]; apply last_None in L; discriminate].
  apply last_Some in L as [l ->]. rewrite app_length. cbn [length]. replace (length l + 1 - 1)%nat with (length l) by lia. destruct (Nat.lt_ge_cases i (length l)) as [Lt | Ge].
  - rewrite lookup_app_l in H by exact Lt. rewrite insert_app_l by exact Lt. rewrite take_app_alt by (rewrite insert_length; reflexivity). rewrite (insert_take_drop l i e Lt).
    rewrite <- (take_drop_middle l i d H) at 1. rewrite <- !Permutation_middle. rewrite app_comm_cons, Permutation_app_comm. cbn [app]. rewrite perm_swap. reflexivity.
  - assert (i = length l) as -> by (apply lookup_lt_Some in H; rewrite app_length in H; cbn in H; lia). rewrite lookup_app_r in H by lia. rewrite Nat.sub_diag in H. injection H as ->.
    replace (length l) with (length l + 0)%nat at 2 by lia. rewrite insert_app_r. cbn [insert list_insert]. rewrite take_app. rewrite Permutation_app_comm. reflexivity.
Qed.
Lemma position_some k db i : position k db = Some i -> exists d, db !! i = Some d /\ clause_key d = k.
Proof.
  revert i. induction db as [| d db IH]; intros i; cbn [position]; [discriminate |]. destruct (bool_decide (clause_key d = k)) eqn:E.
  - intros [= <-]. apply bool_decide_eq_true in E. exists d. split; [reflexivity | exact E].
  - destruct (position k db) as [j |]; [| discriminate]. intros [= <-]. destruct (IH j eq_refl) as (d' & A & B). exists d'. split; [exact A | exact B].
Qed.
Lemma position_none k db : position k db = None -> k ∉ map clause_key db.
Proof.
  induction db as [| d db IH]; cbn [position map]; [intros _; apply not_elem_of_nil |]. destruct (bool_decide (clause_key d = k)) eqn:E; [discriminate |]. apply bool_decide_eq_false in E.
  destruct (position k db); [discriminate |]. intros _. rewrite elem_of_cons. intros [-> | K]; [apply E; reflexivity | exact (IH eq_refl K)].
Qed.
Lemma delete_perm c db : clause_key c ∈ map clause_key db -> map clause_key db ≡ₚ clause_key c :: map clause_key (delete_clause c db).
Proof.
  intros H. unfold delete_clause. destruct (position (clause_key c) db) as [i |] eqn:P; [| destruct (position_none _ _ P H)].
  destruct (position_some _ _ _ P) as (d & L & E). rewrite (Permutation_map clause_key (swap_remove_perm i db d L)). cbn [map]. rewrite E. reflexivity.
Qed.
Lemma runs_deletes n cs : forall db base, map clause_key db ≡ₚ map clause_key cs ++ base -> exists db', runs n db (map SDelete cs) db' /\ map clause_key db' ≡ₚ base.
Proof.
  induction cs as [| c cs IH]; intros db base P; [exists db; split; [apply runs_nil | exact P] |]. cbn [map app] in *.
  assert (clause_key c ∈ map clause_key db) as H by (rewrite P; left). pose proof (delete_perm c db H) as D. destruct (IH (delete_clause c db) base) as (db' & A & B).
  - apply (Permutation_cons_inv (a := clause_key c)). rewrite <- D. exact P.
  - exists db'. split; [| exact B]. intros rest. cbn [app check_pr_refutation]. apply A.
Qed.
Lemma runs_rups n rs : forall db, db_in_range n db -> (forall r, r ∈ rs -> in_range n r /\ contradiction db (neg_of r)) -> runs n db (map SRup rs) (db ++ rs).
Proof.
  induction rs as [| r rs IH]; intros db R H rest; cbn [map app check_pr_refutation]; [rewrite app_nil_r; reflexivity |]. destruct (H r) as [Rr Cr]; [left |]. rewrite (rup_accept n db r R Rr Cr).
  rewrite (IH (db ++ [r])); [rewrite <- app_assoc; reflexivity | |].
  - intros d Hd. apply elem_of_app in Hd as [Hd | Hd]; [exact (R d Hd) |]. apply elem_of_list_singleton in Hd as ->. exact Rr.
  - intros s Hs. destruct (H s) as [Rs Cs]; [right; exact Hs |]. split; [exact Rs |]. apply (contradiction_cover db); [| exact Cs]. intros d Hd. exists d. split; [apply elem_of_app; left; exact Hd | intros l; reflexivity].
Qed.
Lemma resolvent_rup db a b x r : a ∈ db -> Lit x true ∈ a -> ~ Lit x false ∈ a -> b ∈ db -> Lit x false ∈ b -> ~ Lit x true ∈ b -> resolve a b x = Some r -> contradiction db (neg_of r).
Proof.
  intros Ha A Na Hb B Nb E. destruct (resolve_some _ _ _ _ E) as [S _]. right. exists (Lit x true). split.
  - apply (d_unit _ _ a); [exact Ha | exact A |]. intros k Hk N. apply d_start. unfold neg_of. rewrite negated_invol. apply S. split; [left; exact Hk |]. intros V. destruct (lit_of k x V) as [-> | ->]; contradiction.
  - apply (d_unit _ _ b); [exact Hb | exact B |]. intros k Hk N. apply d_start. unfold neg_of. rewrite negated_invol. apply S. split; [right; exact Hk |]. intros V. destruct (lit_of k x V) as [-> | ->]; contradiction.
Qed.
Lemma partition_perm x cs : not_both x cs -> cs ≡ₚ with_lit (Lit x true) cs ++ with_lit (Lit x false) cs ++ without_var x cs.
Proof.
  induction cs as [| c cs IH]; intros N; [reflexivity |]. assert (not_both x cs) as N' by (intros d Hd; apply N; right; exact Hd). specialize (IH N'). unfold with_lit, without_var in *. cbn [List.filter].
  destruct (has (Lit x true) c) eqn:A, (has (Lit x false) c) eqn:B; cbn [negb andb].
  - destruct (N c); [left |]. rewrite !has_iff in *. tauto.
  - cbn [app]. rewrite <- IH. reflexivity.
  - rewrite <- app_comm_cons, <- Permutation_middle, <- IH. reflexivity.
  - rewrite <- !Permutation_middle, <- IH. reflexivity.
Qed.
Lemma reduct_runs n x cs db : db_in_range n cs -> not_both x cs -> same_db db cs -> exists db', runs n db (reduct_steps x cs) db' /\ same_db db' (reduct x cs).
Proof.
  intros R N P. unfold reduct_steps, elim_steps. set (pos := with_lit (Lit x true) cs). set (neg := with_lit (Lit x false) cs). set (rs := resolvents pos neg x).
  assert (db_in_range n db) as Rd by (apply (same_range n db cs); assumption).
  assert (runs n db (map SRup rs) (db ++ rs)) as A.
  { apply runs_rups; [exact Rd |]. intros r Hr. split.
    - apply (reduct_range n x cs R). unfold reduct. apply elem_of_app. right. exact Hr.
    - apply resolvents_elem in Hr as (a & b & Ha & Hb & E). apply with_lit_elem in Ha as [Ha Aa], Hb as [Hb Bb]. apply (contradiction_cover cs db); [apply same_cover, same_sym, P |].
      apply (resolvent_rup cs a b x r); try assumption; intros K; [exact (N a Ha (conj Aa K)) | exact (N b Hb (conj K Bb))]. }
  destruct (runs_deletes n (pos ++ neg) (db ++ rs) (map clause_key (reduct x cs))) as (db' & B & Q).
  - unfold reduct. fold pos neg rs. rewrite !map_app. unfold same_db in P. rewrite P, (Permutation_map clause_key (partition_perm x cs N)). fold pos neg. rewrite !map_app, <- !app_assoc. reflexivity.
  - exists db'. split; [exact (runs_app _ _ _ _ _ _ A B) | exact Q].
Qed.
Lemma same_empty db cs : same_db db cs -> [] ∈ cs -> [] ∈ db.
Proof. intros P H. destruct (same_cover cs db (same_sym _ _ P) [] H) as (d & Hd & S). destruct d as [| l d]; [exact Hd |]. exfalso. apply (not_elem_of_nil l), S. left. Qed.
Lemma empty_accept n db : db_in_range n db -> [] ∈ db -> check_pr_refutation n db [] = Some true.
Proof.
  intros R H. cbn [check_pr_refutation]. apply rup_accept; [exact R | intros l Hl; apply elem_of_nil in Hl; contradiction |]. left. exists []. split; [exact H |]. intros l Hl. apply elem_of_nil in Hl. contradiction.
Qed.

(** What an elimination preserves, seen as a step from one clause set to another. *)
Record good (n : nat) (cs : list clause) (steps : list step) (new : list clause) : Prop := {
  g_taut : taut_free new;
  g_range : db_in_range n new;
  g_down : forall f, satisfies f cs -> satisfies f new;
  g_up : forall f, satisfies f new -> exists g, satisfies g cs;
  g_runs : forall db, same_db db cs -> exists db', runs n db steps db' /\ same_db db' new }.
Lemma good_refl n cs : taut_free cs -> db_in_range n cs -> good n cs [] cs.
Proof. intros T R. split; auto; [intros f Sat; exists f; exact Sat |]. intros db P. exists db. split; [apply runs_nil | exact P]. Qed.
Lemma good_trans n cs s1 mid s2 new : good n cs s1 mid -> good n mid s2 new -> good n cs (s1 ++ s2) new.
Proof.
  intros [T1 R1 D1 U1 S1] [T2 R2 D2 U2 S2]. split; auto.
  - intros f Sat. destruct (U2 f Sat) as [g G]. exact (U1 g G).
  - intros db P. destruct (S1 db P) as (db1 & A & P1). destruct (S2 db1 P1) as (db2 & B & P2). exists db2. split; [exact (runs_app _ _ _ _ _ _ A B) | exact P2].
Qed.
Lemma good_reduct n x cs : taut_free cs -> db_in_range n cs -> good n cs (reduct_steps x cs) (reduct x cs).
Proof.
  intros T R. split.
  - apply reduct_taut_free, T.
  - apply reduct_range, R.
  - intros f. apply reduct_down, taut_free_both, T.
  - intros f Sat. destruct (reduct_up f x cs Sat) as [v V]. eexists. exact V.
  - intros db P. apply reduct_runs; [exact R | apply taut_free_both, T | exact P].
Qed.
Lemma bve_pass_good n cs vars : forall cur steps ch cur' steps' ch', good n cs steps cur -> bve_pass vars cur steps ch = (cur', steps', ch') -> good n cs steps' cur'.
Proof.
  induction vars as [| x vars IH]; intros cur steps ch cur' steps' ch' G; cbn [bve_pass]; [intros [= <- <- _]; exact G |].
  destruct (eliminate_variable cur x) as [[next s] |] eqn:E; [| apply IH; exact G]. apply IH. apply eliminate_eq in E as (-> & -> & _). apply (good_trans _ _ _ cur); [exact G |]. destruct G. apply good_reduct; assumption.
Qed.
Lemma bve_passes_good n m cs k : forall cur steps cur' steps', good n cs steps cur -> bve_passes k m cur steps = (cur', steps') -> good n cs steps' cur'.
Proof.
  induction k as [| k IH]; intros cur steps cur' steps' G; cbn [bve_passes]; [intros [= <- <-]; exact G |].
  destruct (bve_pass (seq 0 m) cur steps false) as [[c s] b] eqn:E. pose proof (bve_pass_good n cs _ _ _ _ _ _ _ G E) as G'. destruct b; [apply IH; exact G' | intros [= <- <-]; exact G'].
Qed.
Lemma has_empty_iff cs : has_empty cs = true <-> [] ∈ cs.
Proof.
  unfold has_empty. rewrite existsb_exists. split; [intros ([| l c] & Hc & E); [apply elem_of_list_In; exact Hc | discriminate] | intros H; exists []; split; [apply elem_of_list_In; exact H | reflexivity]].
Qed.
Lemma bucket_good n cs wc pc sc k : forall cur steps out, good n cs steps cur -> bucket k cur steps wc pc sc = Some out -> exists fin, good n cs out fin /\ [] ∈ fin.
Proof.
  induction k as [| k IH]; intros cur steps out G; cbn [bucket].
  - destruct (has_empty cur) eqn:E; [| discriminate]. intros [= <-]. exists cur. split; [exact G | apply has_empty_iff, E].
  - destruct (has_empty cur) eqn:E; [intros [= <-]; exists cur; split; [exact G | apply has_empty_iff, E] |].
    destruct (vars_of cur) as [| v0 vs]; [discriminate |]. set (v := min_degree cur v0 vs). destruct (Nat.ltb _ _); [discriminate |]. destruct (existsb _ _); [discriminate |]. destruct (Nat.ltb _ _); [discriminate |].
    apply IH. apply (good_trans _ _ _ cur); [exact G |]. destruct G. apply (good_reduct n v cur); assumption.
Qed.
Lemma good_refutes n cs steps fin : good n cs steps fin -> [] ∈ fin -> check_pr_refutation n cs steps = Some true.
Proof.
  intros [T R D U Run] H. destruct (Run cs) as (db & A & P); [unfold same_db; reflexivity |]. specialize (A []). rewrite app_nil_r in A. rewrite A. apply empty_accept; [apply (same_range n db fin); assumption | apply (same_empty db fin); assumption].
Qed.

(** ** Vivification *)
Lemma vivify_loop_spec n db c fuel : forall cur i imp r, (cur `sublist_of` c) -> (c <> [] -> cur <> []) -> (imp = true -> (length cur < length c)%nat /\ is_rup n db cur = Some true) ->
  vivify_loop fuel n db cur i imp = Some (Some r) -> r `sublist_of` c /\ (c <> [] -> r <> []) /\ (length r < length c)%nat /\ is_rup n db r = Some true.
Proof.
  induction fuel as [| fuel IH]; intros cur i imp r Sub Ne Im; cbn [vivify_loop].
  - destruct imp; [| discriminate]. intros [= <-]. destruct (Im eq_refl). tauto.
  - destruct (Nat.ltb 1 (length cur) && Nat.ltb i (length cur)) eqn:G; [| destruct imp; [| discriminate]; intros [= <-]; destruct (Im eq_refl); tauto].
    apply andb_true_iff in G as [G1 G2]. apply Nat.ltb_lt in G1, G2. destruct (is_rup n db (delete i cur)) as [[] |] eqn:E; [| | discriminate].
    + assert (length (delete i cur) = (length cur - 1)%nat) as L by (destruct (lookup_lt_is_Some_2 cur i G2) as [l Hl]; rewrite (length_delete cur i); [lia | eexists; exact Hl]). apply IH.
      * etransitivity; [| exact Sub]. apply sublist_delete.
      * intros _ K. rewrite K in L. cbn in L. lia.
      * intros _. split; [| exact E]. apply sublist_length in Sub. lia.
    + apply IH; assumption.
Qed.
Lemma sub_elem (r c : clause) l : r `sublist_of` c -> l ∈ r -> l ∈ c.
Proof. intros S. induction S as [| x l1 l2 S IH | x l1 l2 S IH]; [auto | |]; rewrite ?elem_of_cons; tauto. Qed.
Lemma in_range_sub n (r c : clause) : r `sublist_of` c -> in_range n c -> in_range n r.
Proof. intros S R l Hl. apply R, (sub_elem r c l S Hl). Qed.
Lemma vivify_loop_total n db c fuel : forall cur i imp, db_in_range n db -> in_range n c -> cur `sublist_of` c -> exists r, vivify_loop fuel n db cur i imp = Some r.
Proof.
  induction fuel as [| fuel IH]; intros cur i imp R Rc Sub; cbn [vivify_loop]; [eexists; reflexivity |]. destruct (_ && _); [| eexists; reflexivity].
  assert (delete i cur `sublist_of` c) as S' by (etransitivity; [apply sublist_delete | exact Sub]).
  destruct (is_rup_ok n db (delete i cur) R (in_range_sub n _ c S' Rc)) as (b & E & _). rewrite E. destruct b; apply IH; assumption.
Qed.

Record viv (n : nat) (cs : list clause) (steps : list step) (cur : list clause) : Prop := {
  v_range : db_in_range n cur;
  v_sub : Forall2 (fun r c => r `sublist_of` c /\ (c <> [] -> r <> [])) cur cs;
  v_models : forall f, satisfies f cs <-> satisfies f cur;
  v_runs : forall db, same_db db cs -> exists db', runs n db steps db' /\ same_db db' cur }.
Lemma insert_perm (cur : list clause) i c c2 : cur !! i = Some c -> c :: <[i := c2]> cur ≡ₚ c2 :: cur.
Proof.
  intros H. pose proof (lookup_lt_Some _ _ _ H) as L. rewrite (insert_take_drop cur i c2 L). rewrite <- (take_drop_middle cur i c H) at 3. rewrite <- !Permutation_middle. apply perm_swap.
Qed.
Lemma viv_refl n cs : db_in_range n cs -> viv n cs [] cs.
Proof.
  intros R. split; [exact R | | intros f; reflexivity |].
  - apply Forall2_same_length_lookup_2; [reflexivity |]. intros i a b A B. rewrite A in B. injection B as ->. split; [reflexivity | auto].
  - intros db P. exists db. split; [apply runs_nil | exact P].
Qed.
Lemma viv_step n cs steps cur i c c2 : viv n cs steps cur -> cur !! i = Some c -> c2 `sublist_of` c -> (c <> [] -> c2 <> []) -> is_rup n cur c2 = Some true ->
  viv n cs (steps ++ [SRup c2; SDelete c]) (<[i := c2]> cur).
Proof.
  intros [R Sub M Run] L S Ne E. assert (c ∈ cur) as Hc by (eapply elem_of_list_lookup_2; exact L). assert (in_range n c2) as R2 by (apply (in_range_sub n c2 c S), R, Hc).
  assert (forall d, d ∈ <[i := c2]> cur -> d = c2 \/ d ∈ cur) as Ins.
  { intros d Hd. apply elem_of_list_lookup in Hd as [j Hj]. destruct (decide (i = j)) as [<- | Nj]; [rewrite list_lookup_insert in Hj by (eapply lookup_lt_Some; exact L); injection Hj as <-; left; reflexivity |].
    rewrite list_lookup_insert_ne in Hj by exact Nj. right. eapply elem_of_list_lookup_2. exact Hj. }
  split.
  - intros d Hd. destruct (Ins d Hd) as [-> | H]; [exact R2 | exact (R d H)].
  - destruct (Forall2_lookup_l _ _ _ _ _ Sub L) as (c0 & L0 & S0 & N0). rewrite <- (list_insert_id cs i c0 L0). apply Forall2_insert; [exact Sub |]. split; [etransitivity; eassumption | auto].
  - intros f. rewrite M. split; intros Sat d Hd.
    + destruct (Ins d Hd) as [-> | H]; [exact (C37_step_sound n cur c2 f E Sat) | exact (Sat d H)].
    + apply elem_of_list_lookup in Hd as [j Hj]. destruct (decide (i = j)) as [<- | Nj].
      * rewrite L in Hj. injection Hj as <-. destruct (Sat c2) as (l & Hl & T); [eapply elem_of_list_lookup_2; apply list_lookup_insert; eapply lookup_lt_Some; exact L |]. exists l. split; [exact (sub_elem c2 c l S Hl) | exact T].
      * apply Sat. apply (elem_of_list_lookup_2 _ j). rewrite list_lookup_insert_ne by exact Nj. exact Hj.
  - intros db P. destruct (Run db P) as (db1 & A & P1). assert (db_in_range n db1) as Rd by (apply (same_range n db1 cur); assumption).
    assert (runs n db1 (map SRup [c2]) (db1 ++ [c2])) as B.
    { apply runs_rups; [exact Rd |]. intros r Hr. apply elem_of_list_singleton in Hr as ->. split; [exact R2 |]. apply (contradiction_cover cur db1); [apply same_cover, same_sym, P1 |].
      destruct (is_rup_ok n cur c2 R R2) as (b & Eb & Hb). rewrite E in Eb. injection Eb as <-. apply Hb. reflexivity. }
    destruct (runs_deletes n [c] (db1 ++ [c2]) (map clause_key (<[i := c2]> cur))) as (db2 & C & P2).
    + unfold same_db in P1. rewrite map_app, P1. pose proof (Permutation_map clause_key (insert_perm cur i c c2 L)) as Q. cbn [map app] in *. rewrite Q, Permutation_app_comm. reflexivity.
    + exists db2. split; [| exact P2]. apply (runs_app _ _ _ _ _ _ A). exact (runs_app _ _ _ _ _ _ B C).
Qed.
Lemma vivify_from_spec n cs idxs : forall cur steps, (forall i, i ∈ idxs -> (i < length cur)%nat) -> viv n cs steps cur -> exists cur' steps', vivify_from idxs n cur steps = Some (cur', steps') /\ viv n cs steps' cur'.
Proof.
  induction idxs as [| i idxs IH]; intros cur steps Lt V; cbn [vivify_from]; [exists cur, steps; split; [reflexivity | exact V] |].
  assert (forall j, j ∈ idxs -> (j < length cur)%nat) as Lt' by (intros j Hj; apply Lt; right; exact Hj).
  destruct (lookup_lt_is_Some_2 cur i) as [c L]; [apply Lt; left |]. rewrite L. destruct (Nat.leb (length c) 1); [apply IH; assumption |].
  pose proof (v_range _ _ _ _ V) as R. destruct (vivify_loop_total n cur c (length c) c 0 false R) as [r Er]; [apply R; eapply elem_of_list_lookup_2; exact L | reflexivity |].
  unfold vivify_clause. rewrite Er. destruct r as [c2 |]; [| apply IH; assumption]. destruct (vivify_loop_spec n cur c (length c) c 0 false c2) as (S & Ne & _ & E); [reflexivity | auto | discriminate | exact Er |].
  apply IH; [rewrite insert_length; exact Lt' |]. apply viv_step; assumption.
Qed.

(** ** Termination of bucket elimination *)
Lemma degree_pos cs v : degree cs v <> 0%nat <-> exists c, c ∈ cs /\ mentions_var v c.
Proof.
  unfold degree. split.
  - intros H. destruct (List.filter _ cs) as [| c l] eqn:E; [destruct (H eq_refl) |]. exists c. assert (In c (List.filter (existsb (fun l => Nat.eqb (lvar l) v)) cs)) as K by (rewrite E; left; reflexivity).
    apply filter_In in K as [Hc K]. split; [apply elem_of_list_In; exact Hc |]. apply existsb_exists in K as (k & Hk & V). apply Nat.eqb_eq in V. exists k. split; [apply elem_of_list_In; exact Hk | exact V].
  - intros (c & Hc & (l & Hl & V)) E. assert (In c (List.filter (existsb (fun l => Nat.eqb (lvar l) v)) cs)) as K.
    { apply filter_In. split; [apply elem_of_list_In; exact Hc |]. apply existsb_exists. exists l. split; [apply elem_of_list_In; exact Hl | apply Nat.eqb_eq; exact V]. }
    destruct (List.filter _ cs); [destruct K | discriminate].
Qed.
Lemma max_var_ge cs l : l ∈ concat cs -> (lvar l <= max_var cs)%nat.
Proof. unfold max_var. induction (concat cs) as [| k ls IH]; intros H; [apply elem_of_nil in H; contradiction |]. cbn [fold_right]. apply elem_of_cons in H as [-> | H]; [lia | specialize (IH H); lia]. Qed.
Lemma vars_of_elem cs v : In v (vars_of cs) <-> exists c, c ∈ cs /\ mentions_var v c.
Proof.
  unfold vars_of. rewrite filter_In, in_seq, negb_true_iff, Nat.eqb_neq, degree_pos. split; [intros [_ H]; exact H |]. intros (c & Hc & (l & Hl & V)). split; [| exists c; split; [exact Hc | exists l; tauto]].
  subst v. pose proof (max_var_ge cs l) as M. assert (l ∈ concat cs) as K; [| specialize (M K); lia]. apply elem_of_list_In, in_concat. exists c. rewrite <- !elem_of_list_In. tauto.
Qed.
Lemma vars_of_nodup cs : List.NoDup (vars_of cs).
Proof. apply List.NoDup_filter, seq_NoDup. Qed.
Lemma min_degree_in cs vs : forall v, In (min_degree cs v vs) (v :: vs).
Proof.
  unfold min_degree. induction vs as [| w vs IH]; intros v; cbn [fold_left]; [left; reflexivity |]. destruct (Nat.ltb (degree cs w) (degree cs v)).
  - right. apply IH.
  - destruct (IH v) as [H | H]; [left; exact H | right; right; exact H].
Qed.
Lemma reduct_vars v cs : In v (vars_of cs) -> (length (vars_of (reduct v cs)) < length (vars_of cs))%nat.
Proof.
  intros H. assert (length (v :: vars_of (reduct v cs)) <= length (vars_of cs))%nat as L; [| exact L]. apply NoDup_incl_length.
  - constructor; [| apply vars_of_nodup]. rewrite vars_of_elem. intros (c & Hc & M). exact (reduct_gone v cs c Hc M).
  - intros w [<- | Hw]; [exact H |]. apply vars_of_elem in Hw as (c & Hc & (l & Hl & V)). apply vars_of_elem. apply reduct_elem in Hc as [[Hc _] | (a & b & Ha & _ & Hb & _ & E)]; [exists c; split; [exact Hc | exists l; tauto] |].
    apply (proj1 (resolve_some _ _ _ _ E)) in Hl as [[Hl | Hl] _]; [exists a | exists b]; (split; [assumption | exists l; tauto]).
Qed.
Lemma vars_of_len n cs : db_in_range n cs -> (length (vars_of cs) <= n)%nat.
Proof.
  intros R. rewrite <- (seq_length n 0). apply NoDup_incl_length; [apply vars_of_nodup |]. intros v Hv. apply vars_of_elem in Hv as (c & Hc & (l & Hl & <-)). apply in_seq. specialize (R c Hc l Hl). lia.
Qed.
Lemma no_vars_sat cs : vars_of cs = [] -> [] ∉ cs -> forall f, satisfies f cs.
Proof.
  intros E N f c Hc. destruct c as [| l c]; [contradiction |]. exfalso. assert (In (lvar l) (vars_of cs)) as H; [| rewrite E in H; destruct H]. apply vars_of_elem. exists (l :: c). split; [exact Hc |]. exists l. split; [left | reflexivity].
Qed.
Lemma widths (rs : list clause) w : (fold_right (fun r m => Nat.max (length r) m) 0 rs <= w)%nat -> existsb (fun r => Nat.ltb w (length r)) rs = false.
Proof.
  induction rs as [| r rs IH]; cbn [fold_right existsb]; [reflexivity |]. intros H. rewrite IH by lia. destruct (Nat.ltb_spec w (length r)); [lia | reflexivity].
Qed.
Lemma bucket_complete k : forall cur, (length (vars_of cur) <= k)%nat -> (forall f, ~ satisfies f cur) ->
  exists W P S, forall w p s steps, (W <= w)%nat -> (P <= p)%nat -> (S <= s)%nat -> exists out, bucket k cur steps w p s = Some out.
Proof.
  induction k as [| k IH]; intros cur L U.
  - exists 0%nat, 0%nat, 0%nat. intros w p s steps _ _ _. cbn [bucket]. destruct (has_empty cur) eqn:E; [eexists; reflexivity |]. exfalso. apply (U (fun _ => true)), no_vars_sat; [destruct (vars_of cur); [reflexivity | cbn in L; lia] |].
    intros K. apply has_empty_iff in K. congruence.
  - cbn [bucket]. destruct (has_empty cur) eqn:E; [exists 0%nat, 0%nat, 0%nat; intros; eexists; reflexivity |]. destruct (vars_of cur) as [| v0 vs] eqn:V.
    { exfalso. apply (U (fun _ => true)), no_vars_sat; [exact V |]. intros K. apply has_empty_iff in K. congruence. }
    set (v := min_degree cur v0 vs). assert (In v (vars_of cur)) as Hv by (rewrite V; apply min_degree_in). pose proof (reduct_vars v cur Hv) as D. rewrite V in D. cbn [length] in D, L.
    destruct (IH (reduct v cur)) as (W & P & Sz & H); [lia | |].
    { intros f Sat. destruct (reduct_up f v cur Sat) as [b B]. exact (U _ B). }
    set (pos := with_lit (Lit v true) cur). set (neg := with_lit (Lit v false) cur). set (rs := resolvents pos neg v).
    exists (Nat.max W (fold_right (fun r m => Nat.max (length r) m) 0 rs)), (Nat.max P (length pos * length neg)), (Nat.max Sz (length (reduct v cur))). intros w p s steps Hw Hp Hs.
    destruct (Nat.ltb_spec p (length pos * length neg)); [lia |]. rewrite (widths rs w) by lia. change (without_var v cur ++ rs) with (reduct v cur). destruct (Nat.ltb_spec s (length (reduct v cur))); [lia |]. apply H; lia.
Qed.

(** ** The clause count *)
Lemma eliminate_count cs x new steps : not_both x cs -> eliminate_variable cs x = Some (new, steps) -> (length new <= length cs)%nat.
Proof.
  intros N E. destruct (eliminate_eq _ _ _ _ E) as (_ & _ & L & _). pose proof (Permutation_length (partition_perm x cs N)) as P. rewrite !app_length in P. lia.
Qed.
Lemma bve_pass_count vars : forall cur steps ch cur' steps' ch', taut_free cur -> bve_pass vars cur steps ch = (cur', steps', ch') -> (length cur' <= length cur)%nat /\ taut_free cur'.
Proof.
  induction vars as [| x vars IH]; intros cur steps ch cur' steps' ch' T; cbn [bve_pass]; [intros [= <- _ _]; split; [lia | exact T] |].
  destruct (eliminate_variable cur x) as [[next s] |] eqn:E; [| apply IH; exact T]. intros H. pose proof (eliminate_count cur x next s (taut_free_both x cur T) E) as C. destruct (eliminate_eq _ _ _ _ E) as (-> & _).
  destruct (IH _ _ _ _ _ _ (reduct_taut_free x cur T) H). split; [lia | assumption].
Qed.
Lemma bve_passes_count k n : forall cur steps cur' steps', taut_free cur -> bve_passes k n cur steps = (cur', steps') -> (length cur' <= length cur)%nat.
Proof.
  induction k as [| k IH]; intros cur steps cur' steps' T; cbn [bve_passes]; [intros [= <- _]; lia |].
  destruct (bve_pass (seq 0 n) cur steps false) as [[c s] b] eqn:E. destruct (bve_pass_count _ _ _ _ _ _ _ T E) as [L T']. destruct b; [intros H; specialize (IH _ _ _ _ T' H); lia | intros [= <- _]; exact L].
Qed.
