(** Property C113: Farkas certificates of linear arithmetic. *)
From Coq Require Import ZArith QArith Qcanon String List Bool Lia Lqa.
From stdpp Require Import gmap strings list.
From Verif Require Import LinMap LinExprModel LinExprProofs LiaModel LiaProofs LiaProps FarkasModel FarkasProofs.
Local Open Scope Qc_scope.

Definition rat (z : Z) : Qc := Q2Qc (inject_Z z).
(** The value of an expression at a rational point: the constant plus each coefficient times its variable. *)
Definition value (e : linexpr) (w : string -> Qc) : Qc :=
  rat (const e) + fold_right (fun p s => rat (snd p) * w (fst p) + s) 0 (map_to_list (coeffs e)).
(** The value at an integer point. *)
Definition zvalue (e : linexpr) (w : string -> Z) : Z :=
  (const e + fold_right (fun p s => snd p * w (fst p) + s) 0 (map_to_list (coeffs e)))%Z.
Definition holds (cs : list linexpr) (w : string -> Qc) : Prop := forall c, In c cs -> value c w <= 0.
Definition zholds (cs : list linexpr) (w : string -> Z) : Prop := forall c, In c cs -> (zvalue c w <= 0)%Z.
(** No stored coefficient is zero (the documented invariant of the type). *)
Definition canonical (e : linexpr) : Prop := forall x c, coeffs e !! x = Some c -> c <> 0%Z.

Lemma value_fval e w : value e w = fval e w.
Proof.
  unfold value, fval. f_equal. rewrite (msum_to_list _ _ _ _ _ _ Qcrt).
  rewrite (lsum_perm _ _ _ _ _ _ Qcrt _ _ _ (map_to_list_fmap q_of_Z (coeffs e))).
  induction (map_to_list (coeffs e)) as [|[x c] l IH]; cbn; [done|]. by rewrite IH.
Qed.
Lemma value_z e w : value e (fun x => rat (w x)) = rat (zvalue e w).
Proof.
  unfold value, zvalue. change rat with q_of_Z. rewrite q_of_Z_add. f_equal.
  induction (map_to_list (coeffs e)) as [|[x c] l IH]; cbn; [done|]. by rewrite IH, q_of_Z_add, q_of_Z_mul.
Qed.
Lemma zholds_holds cs w : zholds cs w -> holds cs (fun x => rat (w x)).
Proof. intros H c Hc. rewrite value_z. change (Q2Qc 0) with (q_of_Z 0). apply q_of_Z_le. by apply H. Qed.

(** A returned certificate has positive multipliers on existing constraints, [combine] of it is a positive
    constant without variables, and the constraints have no rational and no integer solution. *)
Theorem C113_certificate (cs : list linexpr) (m : gmap nat Z) :
  Forall canonical cs -> find_farkas cs = Some m ->
  (forall i k, m !! i = Some k -> (0 < k)%Z /\ (i < length cs)%nat) /\
  (exists d, combine cs m = Some (LE ∅ d) /\ (0 < d)%Z) /\
  (forall w, ~ holds cs w) /\ forall w, ~ zholds cs w.
Proof.
  intros Hp H. destruct (find_sound cs m Hp H) as (r & [(C1 & C2 & C3) _] & He & Hpos & ->).
  assert (Hno : forall w, ~ holds cs w).
  { intros w Hw. assert (Hle : fval (re r) w <= 0).
    { apply (fval_nonpos cs w (prov r)); try done; [|intros j k Hj; by apply C3 in Hj as [? _]].
      intros c Hc. rewrite <- value_fval. by apply Hw. }
    rewrite fval_constant in Hle by done. change (Q2Qc 0) with (q_of_Z 0) in Hle. apply (proj1 (q_of_Z_le _ _)) in Hle. lia. }
  split; [exact C3|]. split; [|split; [done|]].
  - destruct (combine_some cs (prov r)) as ([em ed] & E & E1 & E2 & E3); [intros i k Hi; by apply C3 in Hi as [_ ?]|].
    exists ed. cbn in E2. assert (Hem : em = ∅).
    { apply (pruned_all_zero (LE em ed) E1). intros x. rewrite E3, <- C1. unfold coeff. by rewrite He, lookup_empty. }
    subst em. split; [done|]. rewrite E2, <- C2. done.
  - intros w Hw. by apply zholds_holds, Hno in Hw.
Qed.

(** Any multipliers that combine to a positive constant refute the system: the check a consumer performs. *)
Theorem C113_combine_sound (cs : list linexpr) (m : gmap nat Z) (d : Z) :
  (forall i k, m !! i = Some k -> (0 <= k)%Z) -> combine cs m = Some (LE ∅ d) -> (0 < d)%Z -> forall w, ~ holds cs w.
Proof.
  intros Hm Hc Hd w Hw.
  assert (Hl : forall i k, m !! i = Some k -> (i < length cs)%nat).
  { intros i k Hi. unfold combine in Hc. destruct (forallb _ _) eqn:E; [|done]. rewrite forallb_forall in E.
    apply Nat.ltb_lt, E, elem_of_list_In, elem_of_list_fmap. exists (i, k). split; [done|]. by apply elem_of_map_to_list. }
  destruct (combine_some cs m Hl) as (e & E & _ & E2 & E3). rewrite Hc in E. injection E as <-.
  assert (Hle : fval (LE ∅ d) w <= 0).
  { rewrite (fval_lin (LE ∅ d) (wsum 0 cs m) (wsum 0 cs m) 1 0), q_of_Z_0, q_of_Z_1.
    - rewrite Qcmult_1_l, Qcmult_0_l, Qcplus_0_r.
      assert (G : forall l i, (forall c, In c l -> In c cs) -> fval (wsum i l m) w <= 0); [|by apply G].
      induction l as [|c l IH]; intros i Hs; cbn [wsum].
      + rewrite fval_constant by done. cbn [const le_constant]. rewrite q_of_Z_0. apply Qcle_refl.
      + rewrite fval_add, fval_scale. assert (H1 : fval (wsum (S i) l m) w <= 0) by (apply IH; intros; apply Hs; by right).
        assert (H2 : fval c w <= 0) by (rewrite <- value_fval; apply Hw, Hs; by left).
        assert (H3 : 0 <= q_of_Z (default 0%Z (m !! i))).
        { change (Q2Qc 0) with (q_of_Z 0). apply q_of_Z_le. destruct (m !! i) as [k|] eqn:Ek; cbn; [|lia]. by apply (Hm i). }
        pose proof (Qcmult_le_compat_r _ _ _ H2 H3) as H4. rewrite Qcmult_0_l, Qcmult_comm in H4. qlra.
    - intros x. rewrite wsum_coeff, E3. ring.
    - rewrite wsum_const, E2. ring. }
  rewrite fval_constant in Hle by done. change (Q2Qc 0) with (q_of_Z 0) in Hle. apply (proj1 (q_of_Z_le _ _)) in Hle. cbn in Hle. lia.
Qed.

(** The search is exact over the rationals: no certificate means there is a solution. *)
Theorem C113_complete (cs : list linexpr) : Forall canonical cs -> find_farkas cs = None -> exists w, holds cs w.
Proof.
  intros Hp H. destruct (find_complete cs Hp H) as (w & Hw). exists w. intros c Hc. rewrite value_fval. by apply Hw.
Qed.
Theorem C113_exact (cs : list linexpr) : Forall canonical cs -> (exists w, holds cs w) <-> find_farkas cs = None.
Proof.
  intros Hp. split; [|by apply C113_complete]. intros (w & Hw). destruct (find_farkas cs) as [m|] eqn:E; [|done].
  exfalso. by apply (C113_certificate cs m Hp E) in Hw.
Qed.

(** The value of a proof term: decimal literals are numbers, other names are variables. *)
Fixpoint tval (w : string -> Qc) (t : pterm) : Qc :=
  match t with
  | Constant s => match parse_i64 s with Some n => rat n | None => w s end
  | Variable_ s | BoundVarRef s => w s
  | Function_ f [a; b] =>
      if String.eqb f "add" then tval w a + tval w b
      else if String.eqb f "sub" then tval w a - tval w b
      else if String.eqb f "mul" then tval w a * tval w b else 0
  | _ => 0
  end.
Definition depends (t : pterm) : Prop := exists w w', tval w t <> tval w' t.
(** Not a linear form: an unknown node, or a product of two operands that both vary. *)
Inductive nonlinear : pterm -> Prop :=
| nl_group l : nonlinear (Group l)
| nl_arity f l : length l <> 2%nat -> nonlinear (Function_ f l)
| nl_name f a b : f <> "add"%string -> f <> "sub"%string -> f <> "mul"%string -> nonlinear (Function_ f [a; b])
| nl_mul a b : depends a -> depends b -> nonlinear (Function_ "mul" [a; b])
| nl_left f a b : nonlinear a -> nonlinear (Function_ f [a; b])
| nl_right f a b : nonlinear b -> nonlinear (Function_ f [a; b]).

Lemma pterm_ind2 (P : pterm -> Prop) :
  (forall s, P (Constant s)) -> (forall s, P (Variable_ s)) -> (forall s, P (BoundVarRef s)) -> (forall l, P (Group l)) ->
  (forall f l, length l <> 2%nat -> P (Function_ f l)) -> (forall f a b, P a -> P b -> P (Function_ f [a; b])) -> forall t, P t.
Proof.
  intros H1 H2 H3 H4 H5 H6. fix IH 1. intros [s|s|s|f l|l]; [apply H1|apply H2|apply H3| |apply H4].
  destruct l as [|a [|b [|c l]]]; [by apply H5|by apply H5| |by apply H5]. apply H6; apply IH.
Qed.
Lemma parse_value t : forall e, parse_lin t = Some e -> pruned e /\ forall w, fval e w = tval w t.
Proof.
  induction t as [s|s|s|l|f l Hl|f a b IHa IHb] using pterm_ind2; intros e H.
  - cbn in H. injection H as <-. cbn. destruct (parse_i64 s) as [n|].
    + split; [apply pruned_constant|]. intros w. by rewrite fval_constant.
    + split; [apply pruned_var|]. intros w. apply fval_var.
  - cbn in H. injection H as <-. split; [apply pruned_var|]. intros w. apply fval_var.
  - cbn in H. injection H as <-. split; [apply pruned_var|]. intros w. apply fval_var.
  - done.
  - destruct l as [|a [|b [|c l]]]; done.
  - cbn [parse_lin] in H. cbn [tval].
    destruct (String.eqb f "add"); [|destruct (String.eqb f "sub"); [|destruct (String.eqb f "mul"); [|done]]];
      (destruct (parse_lin a) as [la|]; [|done]); (destruct (parse_lin b) as [lb|]; [|done]);
      destruct (IHa _ eq_refl) as [Ha Va], (IHb _ eq_refl) as [Hb Vb].
    + injection H as <-. split; [apply pruned_add|]. intros w. by rewrite fval_add, Va, Vb.
    + injection H as <-. split; [apply pruned_add|]. intros w. by rewrite fval_sub, Va, Vb.
    + destruct (is_constant la) eqn:Ca; [|destruct (is_constant lb) eqn:Cb; [|done]]; injection H as <-.
      * split; [apply pruned_scale|]. intros w. apply is_constant_spec in Ca. rewrite fval_scale, <- Va, Vb, (fval_constant la) by done. done.
      * split; [apply pruned_scale|]. intros w. apply is_constant_spec in Cb.
        rewrite fval_scale, Va, <- Vb, (fval_constant lb) by done. ring.
Qed.
Lemma parse_depends t e : parse_lin t = Some e -> is_constant e = false <-> depends t.
Proof.
  intros H. destruct (parse_value t e H) as [Hp Hv]. split.
  - intros Hc. assert (Hne : coeffs e <> ∅) by (intros E; apply is_constant_spec in E; congruence).
    apply map_choose in Hne as (x & c & Hx). exists (fun _ => 0), (fupd (fun _ => 0) x 1). rewrite <- !Hv.
    rewrite (fval_upd e x 1), (fval_split e x (fun _ => 0)). generalize (fval e (fupd (fun _ => 0) x 0)). intros b E.
    assert (Hq : q_of_Z (coeff e x) = q_of_Z 0).
    { rewrite q_of_Z_0. replace (q_of_Z (coeff e x)) with (q_of_Z (coeff e x) * 1 + b - b) by ring. rewrite <- E. ring. }
    assert (Hc0 : coeff e x = 0%Z) by (apply Z.le_antisymm; apply q_of_Z_le; rewrite Hq; apply Qcle_refl).
    unfold coeff in Hc0. rewrite Hx in Hc0. cbn in Hc0. by apply (Hp _ _ Hx).
  - intros (w & w' & Hd). destruct (is_constant e) eqn:Hc; [|done]. exfalso. apply Hd. apply is_constant_spec in Hc.
    rewrite <- !Hv, !fval_constant by done. done.
Qed.

(** The parser: accepts exactly the linear terms; the parsed expression is canonical and has the value of
    the term at every point; the difference of two parsed sides is canonical too. *)
Theorem C113_parse (t : pterm) :
  (parse_lin t = None <-> nonlinear t) /\
  forall e, parse_lin t = Some e -> canonical e /\ forall w, value e w = tval w t.
Proof.
  split.
  - induction t as [s|s|s|l|f l Hl|f a b IHa IHb] using pterm_ind2.
    + split; [done|intros H; inversion H].
    + split; [done|intros H; inversion H].
    + split; [done|intros H; inversion H].
    + split; [constructor|done].
    + split; [by constructor|]. intros _. destruct l as [|a [|b [|c l]]]; done.
    + cbn [parse_lin]. split.
      * intros H. destruct (parse_lin a) as [la|] eqn:Pa; [|apply nl_left; by apply IHa].
        destruct (parse_lin b) as [lb|] eqn:Pb; [|apply nl_right; by apply IHb].
        destruct (String.eqb_spec f "add"); [done|]. destruct (String.eqb_spec f "sub"); [done|].
        destruct (String.eqb_spec f "mul") as [->|]; [|by constructor].
        destruct (is_constant la) eqn:Ca; [done|]. destruct (is_constant lb) eqn:Cb; [done|].
        apply nl_mul; by eapply parse_depends.
      * intros H. inversion H as [| |? ? ? N1 N2 N3|? ? D1 D2|? ? ? N1|? ? ? N1]; subst.
        -- done.
        -- apply String.eqb_neq in N1, N2, N3. by rewrite N1, N2, N3.
        -- cbn. destruct (parse_lin a) as [la|] eqn:Pa; [|done]. destruct (parse_lin b) as [lb|] eqn:Pb; [|done].
           apply (parse_depends _ _ Pa) in D1. apply (parse_depends _ _ Pb) in D2. by rewrite D1, D2.
        -- apply IHa in N1. rewrite N1. repeat case_match; done.
        -- apply IHb in N1. rewrite N1. repeat case_match; done.
  - intros e H. destruct (parse_value t e H) as [H1 H2]. split; [exact H1|]. intros w. by rewrite value_fval.
Qed.
Theorem C113_sub (a b : linexpr) : canonical (le_sub a b) /\ forall w, value (le_sub a b) w = value a w - value b w.
Proof. split; [apply pruned_add|]. intros w. rewrite !value_fval. apply fval_sub. Qed.

(** From terms: a certificate for the comparisons [l <= r] refutes them at every rational point, and without a
    certificate some point satisfies all of them. *)
Theorem C113_comparisons (ps : list (pterm * pterm)) (cs : list linexpr) :
  Forall2 (fun p c => exists l r, parse_lin p.1 = Some l /\ parse_lin p.2 = Some r /\ c = le_sub l r) ps cs ->
  (find_farkas cs = None <-> exists w, forall l r, In (l, r) ps -> tval w l <= tval w r).
Proof.
  intros HF.
  assert (Hp : Forall canonical cs).
  { induction HF as [|p c ps cs (l & r & _ & _ & ->) _ IH]; constructor; [apply C113_sub|done]. }
  rewrite <- (C113_exact cs Hp).
  assert (Hw : forall w, holds cs w <-> forall l r, In (l, r) ps -> tval w l <= tval w r).
  { intros w. unfold holds. clear Hp. induction HF as [|[tl tr] c ps cs (l & r & Pl & Pr & ->) _ IH].
    - split; [intros _ ? ? []|intros _ ? []].
    - cbn in Pl, Pr. destruct (C113_parse tl) as [_ Vl], (C113_parse tr) as [_ Vr].
      destruct (Vl _ Pl) as [_ Vl'], (Vr _ Pr) as [_ Vr'].
      assert (E : value (le_sub l r) w <= 0 <-> tval w tl <= tval w tr).
      { destruct (C113_sub l r) as [_ Hs]. rewrite Hs, Vl', Vr'. split; intros H; qlra. }
      split.
      + intros H l' r' [[= <- <-]|Hin]; [apply E, H; by left|]. apply IH; [|done]. intros c Hc. apply H. by right.
      + intros H c [<-|Hc]; [apply E, H; by left|]. revert c Hc. apply IH. intros l' r' Hin. apply H. by right. }
  split; intros (w & H); exists w; by apply Hw.
Qed.

(** The invariant is needed: with an explicit zero coefficient the contradiction [1 <= 0] is not found. *)
Theorem C113_unpruned_refuted : exists cs, find_farkas cs = None /\ forall w, ~ holds cs w.
Proof.
  exists [LE {["x"%string := 0%Z]} 1]. split; [vm_compute; reflexivity|]. intros w Hw.
  specialize (Hw _ (or_introl eq_refl)). rewrite value_fval in Hw. unfold fval in Hw. cbn [coeffs const] in Hw.
  rewrite map_fmap_singleton, (msum_singleton _ _ _ _ _ _ Qcrt), q_of_Z_0, q_of_Z_1, Qcmult_0_l in Hw.
  apply Qcle_not_lt in Hw. apply Hw. rewrite Qcplus_0_r. reflexivity.
Qed.

(** 2 <= x and 2x <= 3 are refuted with multiplier 2 on the first; x <= y, y <= x has no certificate; a product
    of variables is rejected; the rational relaxation of [1 <= 2x <= 1] has no certificate although no integer
    satisfies it. *)
Definition lit (s : string) := Constant s.
Definition cmp (l r : pterm) : option linexpr :=
  match parse_lin l, parse_lin r with Some a, Some b => Some (le_sub a b) | _, _ => None end.
Definition solve (cs : list (option linexpr)) : option (list (nat * Z)) :=
  map_to_list <$> find_farkas (omap id cs).
Example C113_example :
  solve [cmp (lit "2") (lit "x"); cmp (Function_ "mul" [lit "2"; lit "x"]) (lit "3")] = Some [(0%nat, 2%Z); (1%nat, 1%Z)] /\
  solve [cmp (lit "x") (lit "y"); cmp (lit "y") (lit "z"); cmp (lit "z") (Function_ "sub" [lit "x"; lit "1"])]
    = Some [(0%nat, 1%Z); (1%nat, 1%Z); (2%nat, 1%Z)] /\
  solve [cmp (lit "x") (lit "y"); cmp (lit "y") (lit "x")] = None /\
  solve [cmp (lit "1") (Function_ "mul" [lit "2"; lit "x"]); cmp (Function_ "mul" [lit "2"; lit "x"]) (lit "1")] = None /\
  parse_lin (Function_ "mul" [lit "x"; lit "y"]) = None /\
  parse_i64 "-12" = Some (-12)%Z /\ parse_i64 "+7" = Some 7%Z /\ parse_i64 "9223372036854775808" = None /\ parse_i64 "-" = None.
Proof. repeat split; vm_compute; reflexivity. Qed.
