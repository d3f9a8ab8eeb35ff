(** C40: linear arithmetic verdicts are sound and complete over the rationals. *)
From Coq Require Import ZArith QArith Qcanon String List Lia Lqa.
From stdpp Require Import gmap strings list sorting.
From Verif Require Import SynModel SynSem LinMap LinExprModel LinExprProofs LiaModel LiaProofs.
Local Open Scope string_scope.
Local Open Scope Qc_scope.

(** The value of a linear expression and the truth of a constraint, read off the data. *)
Definition value (e : qexpr) (w : Z -> Qc) : Qc :=
  fold_right (fun p acc => snd p * w (fst p) + acc) (lc e) (map_to_list (lm e)).
Definition satisfies (w : Z -> Qc) (c : qcons) : Prop :=
  if qc_strict c then value (qc_expr c) w < 0 else value (qc_expr c) w <= 0.
Definition no_zero_coefficient (c : qcons) : Prop := forall k x, lm (qc_expr c) !! k = Some x -> x <> 0.

Lemma msum_list (m : gmap Z Qc) w : msum (Q2Qc 0) Qcplus Qcmult m w = fold_right (fun p acc => snd p * w (fst p) + acc) 0 (map_to_list m).
Proof.
  rewrite (msum_on _ _ _ _ _ _ Qcrt ((map_to_list m).*1)).
  - assert (H : forall l, (forall k c, (k, c) ∈ l -> m !! k = Some c) ->
      lsum (Q2Qc 0) Qcplus l.*1 (fun k => get (Q2Qc 0) m k * w k) = fold_right (fun p acc => snd p * w (fst p) + acc) 0 l).
    { induction l as [|[k c] l IH]; intros Hl; [done|]. cbn. rewrite IH by (intros; apply Hl; by right).
      unfold get. rewrite (Hl k c) by left. done. }
    apply H. intros k c. apply elem_of_map_to_list.
  - apply NoDup_fst_map_to_list.
  - intros k [c Hc]. apply elem_of_list_fmap. exists (k, c). split; [done|]. by apply elem_of_map_to_list.
Qed.
Lemma value_eval e w : value e w = qeval e w.
Proof.
  unfold value, eval. rewrite msum_list. induction (map_to_list (lm e)) as [|p l IH]; cbn; [ring|].
  rewrite IH. ring.
Qed.
Lemma satisfies_sat w c : satisfies w c <-> sat c w.
Proof. unfold satisfies, sat. by rewrite value_eval. Qed.

(** ** C40 *)
(** A system with a solution is never declared unsatisfiable. *)
Theorem C40_sound cs w : (forall c, In c cs -> satisfies w c) -> fourier_motzkin_unsat cs = false.
Proof.
  intros Hs. unfold fourier_motzkin_unsat. destruct cs as [|c cs]; [done|].
  apply (eliminate_all_sound _ _ w). intros c' Hc'. by apply satisfies_sat, Hs.
Qed.
(** A system without solution is always declared unsatisfiable. *)
Theorem C40_complete cs : (forall c, In c cs -> no_zero_coefficient c) ->
  ~ (exists w, forall c, In c cs -> satisfies w c) -> fourier_motzkin_unsat cs = true.
Proof.
  intros Hz Hu. destruct (fourier_motzkin_unsat cs) eqn:E; [done|]. exfalso. apply Hu.
  unfold fourier_motzkin_unsat in E. destruct cs as [|c0 cs0]; [by exists (fun _ => 0)|].
  destruct (eliminate_all_complete _ _ (fun c Hc => conj (Hz c Hc) (fun k => all_vars_in _ c k Hc)) E) as (w & Hw).
  exists w. intros c Hc. by apply satisfies_sat, Hw.
Qed.
Theorem C40_decides cs : (forall c, In c cs -> no_zero_coefficient c) ->
  (fourier_motzkin_unsat cs = true <-> ~ exists w, forall c, In c cs -> satisfies w c).
Proof.
  intros Hz. split; [|by apply C40_complete]. intros E (w & Hw). rewrite (C40_sound cs w Hw) in E. done.
Qed.
(** The verdict does not depend on the order in which the variables are eliminated. *)
Theorem C40_order_invariant cs vs : cs <> [] -> (forall c, In c cs -> no_zero_coefficient c) ->
  (forall c k, In c cs -> is_Some (lm (qc_expr c) !! k) -> In k vs) ->
  eliminate_all vs cs = fourier_motzkin_unsat cs.
Proof.
  intros Hn Hz Hv. destruct (fourier_motzkin_unsat cs) eqn:E.
  - destruct (eliminate_all vs cs) eqn:E2; [done|]. apply C40_decides in E; [|done]. exfalso. apply E.
    destruct (eliminate_all_complete vs cs) as (w & Hw); [|done|].
    + intros c Hc. split; [by apply Hz|]. intros k. by apply Hv.
    + exists w. intros c Hc. by apply satisfies_sat, Hw.
  - destruct (eliminate_all vs cs) eqn:E2; [|done]. exfalso. unfold fourier_motzkin_unsat in E.
    destruct cs as [|c0 cs0]; [done|].
    destruct (eliminate_all_complete _ _ (fun c Hc => conj (Hz c Hc) (fun k => all_vars_in _ c k Hc)) E) as (w & Hw).
    rewrite (eliminate_all_sound vs _ w Hw) in E2. done.
Qed.

(** *** Goals *)
Lemma q_of_Z_add a b : q_of_Z (a + b) = q_of_Z a + q_of_Z b.
Proof. unfold q_of_Z. apply Qc_is_canon. rewrite qc_add, !qc_const, inject_Z_plus. reflexivity. Qed.
Lemma q_of_Z_mul a b : q_of_Z (a * b) = q_of_Z a * q_of_Z b.
Proof. unfold q_of_Z. apply Qc_is_canon. rewrite qc_mul, !qc_const, inject_Z_mult. reflexivity. Qed.
Lemma q_of_Z_sub a b : q_of_Z (a - b) = q_of_Z a - q_of_Z b.
Proof.
  unfold q_of_Z, Z.sub. apply Qc_is_canon. rewrite qc_sub, !qc_const, inject_Z_plus, inject_Z_opp. reflexivity.
Qed.
Lemma q_of_Z_lt a b : q_of_Z a < q_of_Z b <-> (a < b)%Z.
Proof. unfold q_of_Z, Qclt. rewrite !qc_const. by rewrite Zlt_Qlt. Qed.
Lemma q_of_Z_le a b : q_of_Z a <= q_of_Z b <-> (a <= b)%Z.
Proof. unfold q_of_Z, Qcle. rewrite !qc_const. by rewrite Zle_Qle. Qed.

Notation qval := (val Qcplus Qcmult Qcminus q_of_Z).
Notation zval := (val Z.add Z.mul Z.sub id).
Lemma val_inject rv rn t z : zval rv rn t = Some z -> qval (fun i => q_of_Z (rv i)) (fun s => q_of_Z (rn s)) t = Some (q_of_Z z).
Proof.
  rewrite !val_read. revert z. induction (read t) as [n|i|s|op a IHa b IHb|]; cbn; intros z; try (by intros [= <-]).
  destruct (xval Z.add Z.mul Z.sub id rv rn a) as [x|]; [|done]. destruct (xval Z.add Z.mul Z.sub id rv rn b) as [y|]; [|done].
  rewrite (IHa x), (IHb y) by done. destruct (op =? "add")%string; [|destruct (op =? "sub")%string; [|destruct (op =? "mul")%string; [|done]]];
    intros [= <-]; f_equal; auto using q_of_Z_add, q_of_Z_mul, q_of_Z_sub.
Qed.
(** The truth of a comparison between rationals. *)
Definition qcmp (rel : string) (x y : Qc) : Prop :=
  if is_lt rel then x < y else if is_le rel then x <= y else if is_gt rel then y < x else if is_ge rel then y <= x else False.

Lemma negated_goal_spec rel a b w : match negated_goal rel a b with
  | Some c => sat c w <-> ~ qcmp rel (qeval a w) (qeval b w)
  | None => qcmp rel (qeval a w) (qeval b w) <-> False end.
Proof.
  unfold negated_goal, qcmp, is_lt, is_le, is_gt, is_ge.
  destruct ((rel =? "Lt")%string || (rel =? "lt")%string); [|destruct ((rel =? "Le")%string || (rel =? "le")%string);
    [|destruct ((rel =? "Gt")%string || (rel =? "gt")%string); [|destruct ((rel =? "Ge")%string || (rel =? "ge")%string)]]];
    [| | | |done]; unfold sat; cbn; rewrite qeval_sub; split; intros H.
  - apply Qcle_not_lt. qlra.
  - apply Qcnot_lt_le in H. qlra.
  - apply Qclt_not_le. qlra.
  - apply Qcnot_le_lt in H. qlra.
  - apply Qcle_not_lt. qlra.
  - apply Qcnot_lt_le in H. qlra.
  - apply Qclt_not_le. qlra.
  - apply Qcnot_le_lt in H. qlra.
Qed.
Lemma qcmp_inject other rel x y : qcmp rel (q_of_Z x) (q_of_Z y) -> cmp rel x y other.
Proof.
  unfold qcmp, cmp. destruct (is_lt rel); [apply q_of_Z_lt|]. destruct (is_le rel); [apply q_of_Z_le|].
  destruct (is_gt rel); [intros H; apply Z.lt_gt, (proj1 (q_of_Z_lt _ _) H)|]. destruct (is_ge rel); [intros H; apply Z.le_ge, (proj1 (q_of_Z_le _ _) H)|done].
Qed.

Lemma binary_app_inv t op a b : extract_binary_app t = Some (op, a, b) -> t = SBIN op a b.
Proof.
  unfold extract_binary_app. intros H.
  repeat match type of H with
         | match ?x with _ => _ end = _ => let E := fresh "E" in destruct x eqn:E; try discriminate H
         end.
  subst. injection H as -> -> ->. unfold extract_sname in *.
  repeat match goal with
         | E : match ?x with _ => _ end = Some _ |- _ => let E' := fresh "E" in destruct x eqn:E'; try discriminate E
         | E : (_ =? _)%string = true |- _ => apply String.eqb_eq in E; subst
         end.
  subst. repeat match goal with E : Some _ = Some _ |- _ => injection E as -> end. done.
Qed.
Lemma comparison_inv t rel a b : extract_comparison t = Some (rel, a, b) -> t = SBIN rel a b.
Proof.
  unfold extract_comparison. destruct (extract_binary_app t) as [[[op l] r]|] eqn:E; [|done].
  destruct (existsb _ _); [|done]. intros [= -> -> ->]. by apply binary_app_inv.
Qed.
Lemma reify_linear_ok x st r st' : reify_linear x st = (r, st') -> in_ok st ->
  in_ok st' /\ ext st st' /\
  (forall e, r = Some e -> qwf e /\
     forall st'' rv rn w, ext st' st'' -> agrees st'' rv rn w -> xvars_above (-1000000) x ->
       xval Qcplus Qcmult Qcminus q_of_Z rv rn x = Some (qeval e w)).
Proof. apply (reify_ok _ _ _ _ _ _ _ _ Qcrt q_isz_spec one_nz q_opp_nz). Qed.

(** A goal accepted by the tactic holds for all integer values of its variables and names. *)
Theorem C40_goal goal other rv rn : vars_above (-1000000) goal -> lia_accepts goal = true -> holds other rv rn goal.
Proof.
  intros Hv. unfold lia_accepts. destruct (extract_comparison goal) as [[[rel l] r]|] eqn:E; [|done].
  pose proof (comparison_inv _ _ _ _ E) as ->.
  assert (Hnot : ((rel =? "Implies") || (rel =? "implies"))%string = false).
  { unfold extract_comparison in E. cbn in E. destruct (rel =? "Implies")%string eqn:E1; [apply String.eqb_eq in E1; by subst|].
    destruct (rel =? "implies")%string eqn:E2; [apply String.eqb_eq in E2; by subst|]. done. }
  destruct (reify_linear (read l) in_new) as [[lhs|] st1] eqn:E1; [|done].
  destruct (reify_linear (read r) st1) as [[rhs|] st2] eqn:E2; [|done].
  apply reify_linear_ok in E1 as (O1 & X1 & V1); [|apply in_new_ok]. destruct (V1 _ eq_refl) as [W1 F1].
  apply reify_linear_ok in E2 as (O2 & X2 & V2); [|done]. destruct (V2 _ eq_refl) as [W2 F2].
  destruct (negated_goal rel lhs rhs) as [c|] eqn:En; [|done]. intros Hu.
  cbn -[val]. rewrite Hnot.
  destruct (zval rv rn l) as [x|] eqn:Ex.
  2: { exfalso. destruct (agrees_exists st2 rv rn O2) as (w & Hw).
       destruct (agrees_exists st2 (fun i => q_of_Z (rv i)) (fun s => q_of_Z (rn s)) O2) as (wq & Hwq).
       assert (Hvl : vars_above (-1000000) l) by (cbn in Hv; destruct r; tauto).
       specialize (F1 st2 _ _ wq X2 Hwq (xvars_read _ _ Hvl)).
       rewrite val_read in Ex. clear -Ex F1. revert Ex F1. generalize (qeval lhs wq). induction (read l) as [n|i|s|op a IHa b IHb|]; cbn; try done.
       intros q. destruct (xval Z.add _ _ _ _ _ a) as [x|]; destruct (xval Qcplus _ _ _ _ _ a) as [x'|]; try done; [|by intros; eapply IHa].
       destruct (xval Z.add _ _ _ _ _ b) as [y|]; destruct (xval Qcplus _ _ _ _ _ b) as [y'|]; try done; [|by intros; eapply IHb].
       destruct (op =? "add")%string, (op =? "sub")%string, (op =? "mul")%string; done. }
  destruct (zval rv rn r) as [y|] eqn:Ey.
  2: { exfalso.
       destruct (agrees_exists st2 (fun i => q_of_Z (rv i)) (fun s => q_of_Z (rn s)) O2) as (wq & Hwq).
       assert (Hvl : vars_above (-1000000) r) by (cbn in Hv; destruct r; cbn; tauto).
       specialize (F2 st2 _ _ wq (ext_refl _) Hwq (xvars_read _ _ Hvl)).
       rewrite val_read in Ey. clear -Ey F2. revert Ey F2. generalize (qeval rhs wq). induction (read r) as [n|i|s|op a IHa b IHb|]; cbn; try done.
       intros q. destruct (xval Z.add _ _ _ _ _ a) as [x|]; destruct (xval Qcplus _ _ _ _ _ a) as [x'|]; try done; [|by intros; eapply IHa].
       destruct (xval Z.add _ _ _ _ _ b) as [y|]; destruct (xval Qcplus _ _ _ _ _ b) as [y'|]; try done; [|by intros; eapply IHb].
       destruct (op =? "add")%string, (op =? "sub")%string, (op =? "mul")%string; done. }
  destruct (agrees_exists st2 (fun i => q_of_Z (rv i)) (fun s => q_of_Z (rn s)) O2) as (w & Hw).
  assert (Hvl : vars_above (-1000000) l /\ vars_above (-1000000) r) by (cbn in Hv; destruct r; cbn; tauto).
  pose proof (F1 st2 _ _ w X2 Hw (xvars_read _ _ (proj1 Hvl))) as G1. pose proof (F2 st2 _ _ w (ext_refl _) Hw (xvars_read _ _ (proj2 Hvl))) as G2.
  apply val_inject in Ex. apply val_inject in Ey. rewrite val_read in Ex, Ey. rewrite Ex in G1. rewrite Ey in G2.
  apply (inj Some) in G1. apply (inj Some) in G2. apply qcmp_inject. rewrite G1, G2.
  pose proof (negated_goal_spec rel lhs rhs w) as Hs. rewrite En in Hs.
  assert (Hd : ~ sat c w).
  { intros Hsat. rewrite (C40_sound [c] w) in Hu; [done|]. intros c' [<-|[]]. by apply satisfies_sat. }
  assert (Hdec : qcmp rel (qeval lhs w) (qeval rhs w) \/ ~ qcmp rel (qeval lhs w) (qeval rhs w)).
  { unfold qcmp. repeat case_match; try (destruct (Qclt_le_dec (qeval lhs w) (qeval rhs w)) as [H9|H9];
      destruct (Qclt_le_dec (qeval rhs w) (qeval lhs w)) as [H8|H8]; auto using Qcle_not_lt, Qclt_not_le, Qclt_le_weak). }
  destruct Hdec as [?|Hc]; [done|]. by apply Hs in Hc.
Qed.

(** Terms without variables, and linear terms. *)
Inductive ground : term -> Prop :=
  | ground_lit n : ground (SLIT n)
  | ground_bin op a b : In op ["add"; "sub"; "mul"]%string -> ground a -> ground b -> ground (SBIN op a b).
Inductive linear : term -> Prop :=
  | linear_lit n : linear (SLIT n)
  | linear_var i : linear (SVAR i)
  | linear_name s : linear (SNAME s)
  | linear_add a b : linear a -> linear b -> linear (SBIN "add" a b)
  | linear_sub a b : linear a -> linear b -> linear (SBIN "sub" a b)
  | linear_mul_l a b : ground a -> linear b -> linear (SBIN "mul" a b)
  | linear_mul_r a b : linear a -> ground b -> linear (SBIN "mul" a b).
Lemma read_bin op a b : read (SBIN op a b) = XBin op (read a) (read b).
Proof. reflexivity. Qed.
Lemma constant_scale e k : is_constant e = true -> is_constant (q_scale e k) = true.
Proof.
  rewrite !is_constant_empty. unfold q_scale, l_scale. destruct (q_isz k); [done|]. cbn. intros ->. by rewrite omap_empty.
Qed.
Lemma constant_add a b : is_constant a = true -> is_constant b = true -> is_constant (q_add a b) = true.
Proof. rewrite !is_constant_empty. cbn. intros -> ->. by rewrite merge_empty. Qed.
Lemma constant_sub a b : is_constant a = true -> is_constant b = true -> is_constant (q_sub a b) = true.
Proof. rewrite !is_constant_empty. cbn. intros -> ->. by rewrite fmap_empty, merge_empty. Qed.
Lemma ground_reify t : ground t -> forall st, exists e, reify_linear (read t) st = (Some e, st) /\ is_constant e = true.
Proof.
  induction 1 as [n|op a b Hop Ha IHa Hb IHb]; intros st.
  - eexists. split; [reflexivity|]. by apply is_constant_empty.
  - destruct (IHa st) as (ea & Ea & Ca). destruct (IHb st) as (eb & Eb & Cb).
    unfold reify_linear in *. rewrite read_bin. cbn [reify_lin].
    destruct Hop as [<-|[<-|[<-|[]]]]; cbn [String.eqb Ascii.eqb Bool.eqb orb]; rewrite Ea, Eb.
    + eexists. split; [reflexivity|]. by apply constant_add.
    + eexists. split; [reflexivity|]. by apply constant_sub.
    + rewrite Ca. eexists. split; [reflexivity|]. by apply constant_scale.
Qed.
Lemma linear_reify t : linear t -> forall st, exists e st', reify_linear (read t) st = (Some e, st').
Proof.
  induction 1 as [n|i|s|a b Ha IHa Hb IHb|a b Ha IHa Hb IHb|a b Ha Hb IHb|a b Ha IHa Hb]; intros st.
  - by do 2 eexists.
  - by do 2 eexists.
  - cbn. destruct (intern st s) as [st' i]. by do 2 eexists.
  - destruct (IHa st) as (ea & sa & Ea). destruct (IHb sa) as (eb & sb & Eb). unfold reify_linear in *.
    rewrite read_bin. cbn [reify_lin String.eqb Ascii.eqb Bool.eqb orb]. rewrite Ea, Eb. by do 2 eexists.
  - destruct (IHa st) as (ea & sa & Ea). destruct (IHb sa) as (eb & sb & Eb). unfold reify_linear in *.
    rewrite read_bin. cbn [reify_lin String.eqb Ascii.eqb Bool.eqb orb]. rewrite Ea, Eb. by do 2 eexists.
  - destruct (ground_reify a Ha st) as (ea & Ea & Ca). destruct (IHb st) as (eb & sb & Eb). unfold reify_linear in *.
    rewrite read_bin. cbn [reify_lin String.eqb Ascii.eqb Bool.eqb orb]. rewrite Ea, Eb, Ca. by do 2 eexists.
  - destruct (IHa st) as (ea & sa & Ea). destruct (ground_reify b Hb sa) as (eb & Eb & Cb). unfold reify_linear in *.
    rewrite read_bin. cbn [reify_lin String.eqb Ascii.eqb Bool.eqb orb]. rewrite Ea, Eb, Cb. destruct (is_constant ea); by do 2 eexists.
Qed.
Definition comparison_names : list string := ["Lt"; "Le"; "Gt"; "Ge"; "lt"; "le"; "gt"; "ge"]%string.
Lemma comparison_of rel a b : In rel comparison_names -> extract_comparison (SBIN rel a b) = Some (rel, a, b).
Proof. intros H. repeat destruct H as [<-|H]; try reflexivity. destruct H. Qed.

(** On linear comparisons the tactic accepts exactly the goals true for all rationals. *)
Theorem C40_goal_decides rel a b : In rel comparison_names -> linear a -> linear b ->
  vars_above (-1000000) a -> vars_above (-1000000) b ->
  (lia_accepts (SBIN rel a b) = true <->
   forall rv rn, match qval rv rn a, qval rv rn b with Some x, Some y => qcmp rel x y | _, _ => False end).
Proof.
  intros Hrel Ha Hb Hva Hvb. unfold lia_accepts. rewrite comparison_of by done.
  destruct (linear_reify a Ha in_new) as (lhs & st1 & E1). destruct (linear_reify b Hb st1) as (rhs & st2 & E2).
  rewrite E1, E2.
  apply reify_linear_ok in E1 as (O1 & X1 & V1); [|apply in_new_ok]. destruct (V1 _ eq_refl) as [W1 F1].
  apply reify_linear_ok in E2 as (O2 & X2 & V2); [|done]. destruct (V2 _ eq_refl) as [W2 F2].
  apply xvars_read in Hva, Hvb.
  destruct (negated_goal rel lhs rhs) as [c|] eqn:En.
  2: { exfalso. clear -Hrel En. repeat destruct Hrel as [<-|Hrel]; try discriminate En. destruct Hrel. }
  assert (Wc : no_zero_coefficient c).
  { assert (Hx : qwf (q_sub rhs lhs) /\ qwf (q_sub lhs rhs)) by (split; by apply (wf_sub _ _ _ _ q_isz_spec q_opp_nz)).
    unfold negated_goal in En. repeat case_match; try discriminate En; injection En as <-; apply Hx. }
  split.
  - intros Hu rv rn. destruct (agrees_exists st2 rv rn O2) as (w & Hw).
    rewrite !val_read, (F1 st2 rv rn w X2 Hw Hva), (F2 st2 rv rn w (ext_refl _) Hw Hvb).
    pose proof (negated_goal_spec rel lhs rhs w) as Hs. rewrite En in Hs.
    assert (Hd : ~ sat c w).
    { intros Hsat. rewrite (C40_sound [c] w) in Hu; [done|]. intros c' [<-|[]]. by apply satisfies_sat. }
    assert (Hdec : qcmp rel (qeval lhs w) (qeval rhs w) \/ ~ qcmp rel (qeval lhs w) (qeval rhs w)).
    { unfold qcmp. repeat case_match; try (destruct (Qclt_le_dec (qeval lhs w) (qeval rhs w)) as [H9|H9];
        destruct (Qclt_le_dec (qeval rhs w) (qeval lhs w)) as [H8|H8]; auto using Qcle_not_lt, Qclt_not_le, Qclt_le_weak). }
    destruct Hdec as [?|Hc]; [done|]. by apply Hs in Hc.
  - intros Hall. apply C40_complete; [by intros c' [<-|[]]|]. intros (w & Hw).
    set (rn := fun s => match in_map st2 !! s with Some i => w i | None => 0 end).
    assert (Hag : agrees st2 w rn w). { split; [|done]. intros s i Hs. unfold rn. by rewrite Hs. }
    specialize (Hall w rn). rewrite !val_read, (F1 st2 w rn w X2 Hag Hva), (F2 st2 w rn w (ext_refl _) Hag Hvb) in Hall.
    pose proof (negated_goal_spec rel lhs rhs w) as Hs. rewrite En in Hs.
    apply Hs; [|done]. apply satisfies_sat, Hw. by left.
Qed.

(** *** Examples *)
Definition x0 : term := SVAR 0.
Definition nm : term := SNAME "n".
(** 2·(x+n) + 1 > n + 2·x + n *)
Definition ex_goal : term :=
  SBIN "Gt" (SBIN "add" (SBIN "mul" (SLIT 2) (SBIN "add" x0 nm)) (SLIT 1)) (SBIN "add" nm (SBIN "add" (SBIN "mul" x0 (SLIT 2)) nm)).
Example C40_goal_ex : vars_above (-1000000) ex_goal /\ lia_accepts ex_goal = true.
Proof. split; [cbn; repeat split; lia|by vm_compute]. Qed.
Example C40_goal_use rv rn : holds (fun _ => False) rv rn ex_goal.
Proof. apply C40_goal; apply C40_goal_ex. Qed.
Example C40_goal_decides_ex :
  lia_accepts (SBIN "Lt" (SBIN "mul" (SLIT 2) x0) (SBIN "add" x0 nm)) = false /\
  exists rv rn, match qval rv rn (SBIN "mul" (SLIT 2) x0), qval rv rn (SBIN "add" x0 nm) with
                | Some x, Some y => ~ qcmp "Lt" x y | _, _ => False end.
Proof. split; [by vm_compute|]. exists (fun _ => 0), (fun _ => 0). vm_compute. discriminate. Qed.
(** 2x <= y, y <= x - 1, 1 <= x: unsatisfiable; without the last, satisfiable. *)
Definition c_1 : qcons := QC (LE 0 {[0%Z := Q2Qc 2; 1%Z := Q2Qc (-1)]}) false.
Definition c_2 : qcons := QC (LE (Q2Qc 1) {[1%Z := Q2Qc 1; 0%Z := Q2Qc (-1)]}) false.
Definition c_3 : qcons := QC (LE (Q2Qc 1) {[0%Z := Q2Qc (-1)]}) false.
Example C40_decides_ex :
  fourier_motzkin_unsat [c_1; c_2; c_3] = true /\ fourier_motzkin_unsat [c_1; c_2] = false.
Proof. split; by vm_compute. Qed.
Example C40_sound_ex : forall c, In c [c_1; c_2] -> satisfies (fun i => if Z.eqb i 0 then Q2Qc (-1) else Q2Qc (-2)) c.
Proof. intros c [<-|[<-|[]]]; vm_compute; discriminate. Qed.
Example C40_complete_ex : forall c, In c [c_1; c_2; c_3] -> no_zero_coefficient c.
Proof.
  intros c [<-|[<-|[<-|[]]]] k x; cbn.
  - intros [[_ <-]|[_ H]]%lookup_insert_Some; [discriminate|]. apply lookup_singleton_Some in H as [_ <-]. discriminate.
  - intros [[_ <-]|[_ H]]%lookup_insert_Some; [discriminate|]. apply lookup_singleton_Some in H as [_ <-]. discriminate.
  - intros [_ <-]%lookup_singleton_Some. discriminate.
Qed.
Example C40_order_invariant_ex : eliminate_all [1; 7; 0]%Z [c_1; c_2; c_3] = true.
Proof. by vm_compute. Qed.
(** The condition on stored coefficients is needed: the fields are public, and a stored zero
    coefficient hides the contradiction [0·x + 1 <= 0]. *)
Example C40_zero_coefficient_refuted : exists cs, fourier_motzkin_unsat cs = false /\ ~ exists w, forall c, In c cs -> satisfies w c.
Proof.
  exists [QC (LE (Q2Qc 1) {[0%Z := Q2Qc 0]}) false]. split; [by vm_compute|]. intros (w & Hw).
  specialize (Hw _ (or_introl eq_refl)). rewrite satisfies_sat in Hw. unfold sat in Hw. cbn in Hw.
  rewrite (qeval_split _ 0%Z) in Hw. cbn in Hw. unfold q_get, l_get in Hw. cbn in Hw.
  rewrite lookup_singleton in Hw. cbn in Hw. rewrite qeval_constant in Hw.
  - cbn in Hw. rewrite Qcmult_0_l, Qcplus_0_l in Hw. by apply Hw.
  - apply is_constant_empty. cbn. apply delete_singleton.
Qed.
(** The condition on variable indices is needed: the interner hands out the indices from -1000000
    downwards, so an [SVar] with such an index is identified with a name, and the false goal
    [SVar (-1000000) <= n] is accepted. *)
Example C40_goal_refuted : exists goal, lia_accepts goal = true /\ exists rv rn, ~ holds (fun _ => False) rv rn goal.
Proof.
  exists (SBIN "Le" (SVAR (-1000000)) (SNAME "n")). split; [by vm_compute|].
  exists (fun _ => 1%Z), (fun _ => 0%Z). cbn. unfold cmp. cbn. by intros H.
Qed.
