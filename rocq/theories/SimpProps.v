(** C62: the kernel's simplifier. *)
From Coq Require Import ZArith String List Lia.
From stdpp Require Import gmap strings list.
From Verif Require Import SynModel SimpModel.
Local Open Scope string_scope.
Local Open Scope list_scope.

(** ** Specification *)

(** The kernel term that quotes an expression. *)
Fixpoint enc (s : sterm) : term :=
  match s with
  | SLitT n => SLIT n
  | SVarT i => SVAR i
  | SNameT s => SNAME s
  | SAppT f a => SAPP (enc f) (enc a)
  end.
(** The three ways of writing the equation [a = b]. *)
Inductive is_eq : term -> sterm -> sterm -> Prop :=
  | is_Eq a b : is_eq (SBIN "Eq" (enc a) (enc b)) a b
  | is_eq' a b : is_eq (SBIN "eq" (enc a) (enc b)) a b
  | is_Eq3 T a b : is_eq (SAPP (SAPP (SAPP (SNAME "Eq") T) (enc a)) (enc b)) a b.
Definition goal_of (hs : list term) (c : term) : term := foldr (SBIN "implies") c hs.

(** Interpretations: any set with an application, in which the five arithmetic names compute on
    [i64] literals wherever the mathematical result is an [i64]; division rounds towards zero. *)
Definition i64 (n : Z) : Prop := (- 2 ^ 63 <= n < 2 ^ 63)%Z.
Record interp := { dom : Type; lit : Z -> dom; nam : string -> dom; app : dom -> dom -> dom }.
Definition arithmetical (I : interp) : Prop := forall x y, i64 x -> i64 y ->
  (i64 (x + y) -> app I (app I (nam I "add") (lit I x)) (lit I y) = lit I (x + y)) /\
  (i64 (x - y) -> app I (app I (nam I "sub") (lit I x)) (lit I y) = lit I (x - y)) /\
  (i64 (x * y) -> app I (app I (nam I "mul") (lit I x)) (lit I y) = lit I (x * y)) /\
  (y <> 0%Z -> i64 (Z.quot x y) -> app I (app I (nam I "div") (lit I x)) (lit I y) = lit I (Z.quot x y)) /\
  (y <> 0%Z -> app I (app I (nam I "mod") (lit I x)) (lit I y) = lit I (Z.rem x y)).
Fixpoint val (I : interp) (env : Z -> dom I) (s : sterm) : dom I :=
  match s with
  | SLitT n => lit I n
  | SVarT i => env i
  | SNameT s => nam I s
  | SAppT f a => app I (val I env f) (val I env a)
  end.
(** Integer literals of a kernel term fit their type. *)
Fixpoint ints_ok (t : term) : Prop :=
  match t with
  | TApp f a => ints_ok f /\ ints_ok a
  | TInt n => i64 n
  | _ => True
  end.
Fixpoint sints_ok (s : sterm) : Prop :=
  match s with
  | SLitT n => i64 n
  | SAppT f a => sints_ok f /\ sints_ok a
  | _ => True
  end.
Definition follows (hs : list term) (a b : sterm) : Prop := forall I env, arithmetical I ->
  (forall h x y, In h hs -> is_eq h x y -> val I env x = val I env y) -> val I env a = val I env b.

(** ** Reading terms *)
Lemma extract_slit_inv t n : extract_slit t = Some n -> t = SLIT n.
Proof. destruct t as [[| c | | |] [| | | |] | | | |]; cbn; try discriminate. destruct (String.eqb_spec c "SLit") as [->|]; [|discriminate]. by intros [= ->]. Qed.
Lemma extract_svar_inv t n : extract_svar t = Some n -> t = SVAR n.
Proof. destruct t as [[| c | | |] [| | | |] | | | |]; cbn; try discriminate. destruct (String.eqb_spec c "SVar") as [->|]; [|discriminate]. by intros [= ->]. Qed.
Lemma extract_sname_inv t n : extract_sname t = Some n -> t = SNAME n.
Proof. destruct t as [[| c | | |] [| | | |] | | | |]; cbn; try discriminate. destruct (String.eqb_spec c "SName") as [->|]; [|discriminate]. by intros [= ->]. Qed.
Lemma extract_sapp_inv t f a : extract_sapp t = Some (f, a) -> t = SAPP f a.
Proof. destruct t as [[[| c | | |] | | | |] | | | |]; cbn; try discriminate. destruct (String.eqb_spec c "SApp") as [->|]; [|discriminate]. by intros [= -> ->]. Qed.
Lemma extract_binary_app_inv t o a b : extract_binary_app t = Some (o, a, b) -> t = SBIN o a b.
Proof.
  destruct t as [[[| c | | |] [[[| c2 | | |] o' | | | |] a' | | | |] | | | |] b' | | | |]; cbn -[extract_sname]; try discriminate.
  destruct (String.eqb_spec c "SApp") as [->|]; [|discriminate]. destruct (String.eqb_spec c2 "SApp") as [->|]; [|discriminate].
  destruct (extract_sname o') eqn:E; [|discriminate]. apply extract_sname_inv in E as ->. by intros [= -> -> ->].
Qed.
Lemma term_to_sterm_step t : term_to_sterm t =
  match extract_slit t with
  | Some n => Some (SLitT n)
  | None => match extract_svar t with
    | Some i => Some (SVarT i)
    | None => match extract_sname t with
      | Some s => Some (SNameT s)
      | None => match extract_sapp t with
        | Some (f, a) => match term_to_sterm f with
            | Some sf => match term_to_sterm a with Some sa => Some (SAppT sf sa) | None => None end
            | None => None end
        | None => None end end end end.
Proof.
  destruct t as [g a | | | |]; [|done..]. cbn [term_to_sterm].
  destruct (extract_slit _); [done|]. destruct (extract_svar _); [done|]. destruct (extract_sname _); [done|].
  destruct g as [[| c | | |] f | | | |]; try done. cbn. by destruct (String.eqb c "SApp").
Qed.
Fixpoint tsize (t : term) : nat := match t with TApp f a => S (tsize f + tsize a) | _ => 1 end.
Lemma term_to_sterm_inv t : forall s, term_to_sterm t = Some s -> t = enc s.
Proof.
  remember (tsize t) as n eqn:En. assert (Hn : tsize t <= n) by lia. clear En. revert t Hn. induction n as [|n IH]; intros t Hn s.
  { destruct t; cbn in Hn; lia. }
  rewrite term_to_sterm_step. destruct (extract_slit t) eqn:E1. { intros [= <-]. by apply extract_slit_inv. }
  destruct (extract_svar t) eqn:E2. { intros [= <-]. by apply extract_svar_inv. }
  destruct (extract_sname t) eqn:E3. { intros [= <-]. by apply extract_sname_inv. }
  destruct (extract_sapp t) as [[f a]|] eqn:E4; [|discriminate]. apply extract_sapp_inv in E4 as ->. cbn in Hn.
  destruct (term_to_sterm f) eqn:Ef; [|discriminate]. destruct (term_to_sterm a) eqn:Ea; [|discriminate]. intros [= <-].
  apply IH in Ef as ->; [|lia]. apply IH in Ea as ->; [|lia]. done.
Qed.
Lemma term_to_sterm_enc s : term_to_sterm (enc s) = Some s.
Proof.
  induction s as [| | |f IHf a IHa]; [done..|]. rewrite term_to_sterm_step. cbn [enc].
  change (extract_sapp (SAPP (enc f) (enc a))) with (Some (enc f, enc a)). cbn [extract_slit extract_svar extract_sname SAPP].
  by rewrite IHf, IHa.
Qed.
Lemma enc_inj s t : enc s = enc t -> s = t.
Proof. intros H. pose proof (term_to_sterm_enc s) as E. rewrite H, term_to_sterm_enc in E. congruence. Qed.
Lemma extract_equality_inv t l r a b : extract_equality t = Some (l, r) -> l = enc a -> r = enc b -> is_eq t a b.
Proof.
  unfold extract_equality. intros H -> ->.
  assert (H3 : extract_ternary_eq t = Some (enc a, enc b) -> is_eq t a b).
  { clear H. unfold extract_ternary_eq. destruct (extract_sapp t) as [[f r]|] eqn:E1; [|discriminate].
    destruct (extract_sapp f) as [[f2 l]|] eqn:E2; [|discriminate]. destruct (extract_sapp f2) as [[e T]|] eqn:E3; [|discriminate].
    destruct (extract_sname e) as [nm|] eqn:E4; [|discriminate]. destruct (String.eqb_spec nm "Eq") as [->|]; [|discriminate].
    intros [= -> ->]. apply extract_sapp_inv in E1 as ->, E2 as ->, E3 as ->. apply extract_sname_inv in E4 as ->. constructor. }
  destruct (extract_binary_app t) as [[[op l] r]|] eqn:E; [|by apply H3].
  destruct (String.eqb_spec op "Eq") as [->|]; cbn in H.
  { injection H as -> ->. apply extract_binary_app_inv in E as ->. constructor. }
  destruct (String.eqb_spec op "eq") as [->|]; cbn in H; [|by apply H3].
  injection H as -> ->. apply extract_binary_app_inv in E as ->. constructor.
Qed.
Lemma extract_equality_enc t a b : is_eq t a b -> extract_equality t = Some (enc a, enc b).
Proof. by intros []. Qed.
Lemma is_eq_inj t a b a' b' : is_eq t a b -> is_eq t a' b' -> a = a' /\ b = b'.
Proof.
  intros H1 H2. apply extract_equality_enc in H1, H2. rewrite H1 in H2. injection H2 as Ha Hb. by split; apply enc_inj.
Qed.
Lemma sterm_eqb_ok s : forall t, sterm_eqb s t = true <-> s = t.
Proof.
  induction s as [n|i|x|f IHf a IHa]; intros [m|j|y|g b]; cbn; try (split; [discriminate|intros H; discriminate H]).
  - rewrite Z.eqb_eq. split; congruence.
  - rewrite Z.eqb_eq. split; congruence.
  - rewrite String.eqb_eq. split; congruence.
  - rewrite andb_true_iff, IHf, IHa. split; [intros [-> ->]; done|intros [= -> ->]; done].
Qed.

(** What [decompose_goal] finds. *)
Definition note_hyps (hs : list term) (su : ssubst) : ssubst := fold_left (fun su h => note_hyp h su) hs su.
Lemma decompose_step t su : decompose t su =
  match simp_implication t with Some (h, c) => decompose c (note_hyp h su) | None => (su, t) end.
Proof.
  destruct t as [[[| c | | |] [[[| c2 | | |] o | | | |] a | | | |] | | | |] b | | | |]; try done.
  unfold decompose; fold decompose. destruct (simp_implication _) as [[h r]|] eqn:E; [|done].
  enough (b = r) as -> by done. unfold simp_implication in E. destruct (extract_binary_app _) as [[[op x] y]|] eqn:E2; [|discriminate].
  destruct (String.eqb op "implies"); [|discriminate]. injection E as <- <-. apply extract_binary_app_inv in E2. by injection E2.
Qed.
Lemma simp_implication_inv t h c : simp_implication t = Some (h, c) -> t = SBIN "implies" h c.
Proof.
  unfold simp_implication. destruct (extract_binary_app t) as [[[op x] y]|] eqn:E2; [|discriminate].
  destruct (String.eqb_spec op "implies") as [->|]; [|discriminate]. intros [= -> ->]. by apply extract_binary_app_inv.
Qed.
Lemma decompose_inv t : forall su su' c, decompose t su = (su', c) -> exists hs, t = goal_of hs c /\ su' = note_hyps hs su.
Proof.
  remember (tsize t) as n eqn:En. assert (Hn : tsize t <= n) by lia. clear En. revert t Hn. induction n as [|n IH]; intros t Hn su su' c.
  { destruct t; cbn in Hn; lia. }
  rewrite decompose_step. destruct (simp_implication t) as [[h r]|] eqn:E.
  - apply simp_implication_inv in E as ->. cbn in Hn. intros H. apply IH in H as (hs & -> & ->); [|lia]. by exists (h :: hs).
  - intros [= <- <-]. by exists [].
Qed.
Lemma simp_implication_eq c a b : is_eq c a b -> simp_implication c = None.
Proof. by intros []. Qed.
Lemma decompose_goal_of hs : forall su c a b, is_eq c a b -> decompose (goal_of hs c) su = (note_hyps hs su, c).
Proof.
  induction hs as [|h hs IH]; intros su c a b Hc; cbn [goal_of foldr]; rewrite decompose_step.
  - by rewrite (simp_implication_eq c a b).
  - change (simp_implication (SBIN "implies" h (foldr (SBIN "implies") c hs))) with (Some (h, goal_of hs c)).
    cbv beta iota. by rewrite (IH _ _ a b Hc).
Qed.
Lemma note_hyp_spec h su i : (exists r, is_eq h (SVarT i) r /\ note_hyp h su !! i = Some r) \/
  ((forall r, ~ is_eq h (SVarT i) r) /\ note_hyp h su !! i = su !! i).
Proof.
  destruct (note_hyp h su !! i) as [r|] eqn:E.
  - unfold note_hyp in E. destruct (extract_equality h) as [[l r']|] eqn:Eh.
    2: { right. split; [|congruence]. intros r0 H. apply extract_equality_enc in H. congruence. }
    destruct (term_to_sterm l) as [[| j | |]|] eqn:El;
      try (right; split; [|congruence]; intros r0 H; apply extract_equality_enc in H; rewrite Eh in H; injection H as -> _; discriminate El).
    destruct (term_to_sterm r') as [sr|] eqn:Er.
    2: { right. split; [|congruence]. intros r0 H. apply extract_equality_enc in H. rewrite Eh in H. injection H as _ ->. by rewrite term_to_sterm_enc in Er. }
    apply term_to_sterm_inv in El as ->, Er as ->. destruct (decide (j = i)) as [->|Hne].
    + rewrite lookup_insert in E. injection E as <-. left. exists sr. split; [|done]. by eapply extract_equality_inv.
    + rewrite lookup_insert_ne in E by done. right. split; [|congruence]. intros r0 H. apply extract_equality_enc in H. rewrite Eh in H. by injection H.
  - right. unfold note_hyp in E. destruct (extract_equality h) as [[l r']|] eqn:Eh.
    2: { split; [|congruence]. intros r0 H. apply extract_equality_enc in H. congruence. }
    destruct (term_to_sterm l) as [[| j | |]|] eqn:El;
      try (split; [|congruence]; intros r0 H; apply extract_equality_enc in H; rewrite Eh in H; injection H as -> _; discriminate El).
    destruct (term_to_sterm r') as [sr|] eqn:Er.
    2: { split; [|congruence]. intros r0 H. apply extract_equality_enc in H. rewrite Eh in H. injection H as _ ->. by rewrite term_to_sterm_enc in Er. }
    destruct (decide (j = i)) as [->|Hne]; [by rewrite lookup_insert in E|]. rewrite lookup_insert_ne in E by done.
    split; [|done]. intros r0 H. apply extract_equality_enc in H. rewrite Eh in H. injection H as -> _. by injection El.
Qed.
Lemma note_hyps_from hs : forall su i r, note_hyps hs su !! i = Some r -> su !! i = Some r \/ exists h, In h hs /\ is_eq h (SVarT i) r.
Proof.
  induction hs as [|h hs IH]; intros su i r H; [by left|]. apply IH in H as [H|(h' & Hin & H)].
  - destruct (note_hyp_spec h su i) as [(r' & H1 & H2)|[_ H2]].
    + right. exists h. split; [by left|]. congruence.
    + left. congruence.
  - right. exists h'. split; [by right|done].
Qed.
Lemma ints_enc s : ints_ok (enc s) -> sints_ok s.
Proof. induction s; cbn; tauto. Qed.
Lemma ints_eq t a b : is_eq t a b -> ints_ok t -> sints_ok a /\ sints_ok b.
Proof. intros [] H; cbn in H; (split; apply ints_enc; tauto). Qed.
Lemma ints_goal hs c : ints_ok (goal_of hs c) -> ints_ok c /\ forall h, In h hs -> ints_ok h.
Proof.
  induction hs as [|h hs IH]; cbn; [by intros H; split|]. intros H. destruct IH as [IH1 IH2]; [unfold goal_of; tauto|].
  split; [done|]. intros h' [<-|Hin]; [tauto|by apply IH2].
Qed.

(** ** Soundness *)
Lemma is_i64_ok n : is_i64 n = true <-> i64 n.
Proof. unfold is_i64, i64. rewrite andb_true_iff, Z.leb_le, Z.ltb_lt. lia. Qed.
Lemma checked_ok n m : checked n = Some m -> n = m /\ i64 m.
Proof. unfold checked. destruct (is_i64 n) eqn:E; [|discriminate]. apply is_i64_ok in E. by intros [= ->]. Qed.
Lemma rem_i64 x y : i64 x -> i64 y -> y <> 0%Z -> i64 (Z.rem x y).
Proof. unfold i64. intros Hx Hy H0. pose proof (Z.rem_bound_abs x y H0). lia. Qed.
Lemma try_arithmetic_ok f a r : try_arithmetic f a = Some r -> sints_ok f -> sints_ok a -> sints_ok r /\
  (forall I env, arithmetical I -> app I (val I env f) (val I env a) = val I env r).
Proof.
  unfold try_arithmetic. destruct f as [| | |[| |op|] [x| | |]]; try discriminate. destruct a as [y| | |]; try discriminate.
  cbn [sints_ok]. intros H [_ Hx] Hy.
  destruct (String.eqb_spec op "add") as [->|].
  { destruct (checked (x + y)) as [z|] eqn:E; [|discriminate]. injection H as <-. apply checked_ok in E as [<- Hz]. split; [done|]. intros I env HA. cbn. by apply HA. }
  destruct (String.eqb_spec op "sub") as [->|].
  { destruct (checked (x - y)) as [z|] eqn:E; [|discriminate]. injection H as <-. apply checked_ok in E as [<- Hz]. split; [done|]. intros I env HA. cbn. by apply HA. }
  destruct (String.eqb_spec op "mul") as [->|].
  { destruct (checked (x * y)) as [z|] eqn:E; [|discriminate]. injection H as <-. apply checked_ok in E as [<- Hz]. split; [done|]. intros I env HA. cbn. by apply HA. }
  destruct (String.eqb_spec op "div") as [->|].
  { destruct (Z.eqb_spec y 0); [discriminate|]. destruct (checked (Z.quot x y)) as [z|] eqn:E; [|discriminate]. injection H as <-. apply checked_ok in E as [<- Hz].
    split; [done|]. intros I env HA. cbn. by apply HA. }
  destruct (String.eqb_spec op "mod") as [->|]; [|discriminate].
  destruct (Z.eqb_spec y 0); [discriminate|]. unfold checked_rem in H. destruct (is_i64 _); [|discriminate]. injection H as <-.
  split; [by apply rem_i64|]. intros I env HA. cbn. by apply HA.
Qed.
Lemma simplify_ok su n : (forall i r, su !! i = Some r -> sints_ok r) -> forall t, sints_ok t -> sints_ok (simplify_sterm t su n) /\
  (forall I env, arithmetical I -> (forall i r, su !! i = Some r -> env i = val I env r) -> val I env (simplify_sterm t su n) = val I env t).
Proof.
  intros Hsu. induction n as [|n IH]; intros t Ht; [done|]. destruct t as [| i | | f a]; cbn [simplify_sterm]; [done| |done|].
  - destruct (su !! i) as [r|] eqn:E; [|done]. destruct (IH r (Hsu i r E)) as [H1 H2]. split; [done|]. intros I env HA He. rewrite H2 by done. by rewrite <- (He i r E).
  - destruct Ht as [Hf Ha]. destruct (IH f Hf) as [F1 F2]. destruct (IH a Ha) as [A1 A2].
    destruct (try_arithmetic _ _) as [r|] eqn:E.
    + destruct (try_arithmetic_ok _ _ _ E F1 A1) as [R1 R2]. destruct (IH r R1) as [Q1 Q2]. split; [done|]. intros I env HA He.
      rewrite Q2, <- R2, F2, A2 by done. done.
    + split; [done|]. intros I env HA He. cbn. by rewrite F2, A2.
Qed.

(** A goal that passes the check is a chain of implications ending in an equation, and the equation
    follows from the equations among the hypotheses: it holds wherever those do and arithmetic on
    literals is [i64] arithmetic. *)
Theorem C62_sound : forall goal, ints_ok goal -> simp_check_goal goal = true ->
  exists hs c a b, goal = goal_of hs c /\ is_eq c a b /\ follows hs a b.
Proof.
  intros goal Hok H. unfold simp_check_goal, decompose_goal in H. destruct (decompose goal ∅) as [su c] eqn:Ed.
  apply decompose_inv in Ed as (hs & -> & ->). destruct (extract_equality c) as [[l r]|] eqn:Ee; [|discriminate].
  destruct (term_to_sterm l) as [a|] eqn:Ea; [|discriminate]. destruct (term_to_sterm r) as [b|] eqn:Eb; [|discriminate].
  apply term_to_sterm_inv in Ea, Eb. pose proof (extract_equality_inv c l r a b Ee Ea Eb) as Hc.
  exists hs, c, a, b. split; [done|]. split; [done|]. apply sterm_eqb_ok in H. apply ints_goal in Hok as [Hokc Hokh].
  destruct (ints_eq c a b Hc Hokc) as [Hia Hib].
  assert (Hsu : forall i r, note_hyps hs ∅ !! i = Some r -> exists h, In h hs /\ is_eq h (SVarT i) r).
  { intros i r0 Hr. apply note_hyps_from in Hr as [Hr|Hr]; [by rewrite lookup_empty in Hr|done]. }
  assert (Hsi : forall i r, note_hyps hs ∅ !! i = Some r -> sints_ok r).
  { intros i r0 Hr. destruct (Hsu i r0 Hr) as (h & Hin & Hh). by destruct (ints_eq h _ _ Hh (Hokh h Hin)). }
  intros I env HA Hh.
  assert (He : forall i r, note_hyps hs ∅ !! i = Some r -> env i = val I env r).
  { intros i r0 Hr. destruct (Hsu i r0 Hr) as (h & Hin & Hh'). exact (Hh h _ _ Hin Hh'). }
  destruct (simplify_ok (note_hyps hs ∅) FUEL Hsi a Hia) as [_ H1]. destruct (simplify_ok (note_hyps hs ∅) FUEL Hsi b Hib) as [_ H2].
  rewrite <- (H1 I env HA He), <- (H2 I env HA He). by rewrite H.
Qed.

(** ** What is accepted *)

(** Any equation with equal sides is accepted, whatever the hypotheses. *)
Theorem C62_reflexive : forall hs c a, is_eq c a a -> simp_check_goal (goal_of hs c) = true.
Proof.
  intros hs c a Hc. unfold simp_check_goal, decompose_goal. rewrite (decompose_goal_of hs ∅ c a a Hc), (extract_equality_enc c a a Hc), !term_to_sterm_enc.
  by apply sterm_eqb_ok.
Qed.

(** [computes hs s n d]: [s] is an arithmetic expression over literals and variables that some
    hypothesis defines, its value is [n] without leaving the [i64] range on the way, and [d] bounds
    the nesting, definitions unfolded. *)
Inductive computes (hs : list term) : sterm -> Z -> nat -> Prop :=
  | comp_lit n d : computes hs (SLitT n) n d
  | comp_var i r n d h : In h hs -> is_eq h (SVarT i) r -> computes hs r n d -> computes hs (SVarT i) n (S d)
  | comp_bin op x y m n k d : computes hs x m d -> computes hs y n (S d) ->
      (op = "add" /\ k = (m + n)%Z \/ op = "sub" /\ k = (m - n)%Z \/ op = "mul" /\ k = (m * n)%Z \/
       op = "div" /\ n <> 0%Z /\ k = Z.quot m n \/ op = "mod" /\ n <> 0%Z /\ k = Z.rem m n /\ i64 (Z.quot m n)) ->
      i64 k -> computes hs (SAppT (SAppT (SNameT op) x) y) k (S (S d)).
(** No variable has two defining hypotheses. *)
Definition one_definition (hs : list term) : Prop := forall h h' i r r', In h hs -> In h' hs ->
  is_eq h (SVarT i) r -> is_eq h' (SVarT i) r' -> r = r'.
Lemma note_hyps_one hs : one_definition hs -> forall su i h r, In h hs -> is_eq h (SVarT i) r ->
  note_hyps hs su !! i = Some r.
Proof.
  induction hs as [|h0 hs IH]; intros Hone su i h r Hin Hh; [done|]. cbn [note_hyps fold_left].
  assert (Hone' : one_definition hs). { intros a b j p q Ha Hb. apply (Hone a b j); by right. }
  destruct Hin as [<-|Hin]; [|by apply (IH Hone' _ i h r)].
  change (note_hyps hs (note_hyp h0 su) !! i = Some r).
  destruct (note_hyp_spec h0 su i) as [(r' & H1 & H2)|[H1 _]]; [|by destruct (H1 r)].
  destruct (is_eq_inj _ _ _ _ _ Hh H1) as [_ <-].
  clear Hone' IH. revert H2. generalize (note_hyp h0 su) as su'. intros su'.
  assert (Hrest : forall h' r', In h' hs -> is_eq h' (SVarT i) r' -> r' = r).
  { intros h' r' Hin' H'. apply (Hone h' h0 i); [by right|by left|done|done]. }
  clear Hone. revert su'. induction hs as [|h1 hs IH]; intros su' Hs; [done|]. cbn. apply IH.
  - intros h' r' Hin'. apply Hrest. by right.
  - destruct (note_hyp_spec h1 su' i) as [(r' & Q1 & Q2)|[_ Q2]]; [|congruence].
    rewrite Q2. f_equal. apply (Hrest h1); [by left|done].
Qed.
Lemma simplify_name s su n : simplify_sterm (SNameT s) su n = SNameT s.
Proof. by destruct n. Qed.
Lemma simplify_lit k su n : simplify_sterm (SLitT k) su n = SLitT k.
Proof. by destruct n. Qed.
Lemma try_arithmetic_name o f : try_arithmetic (SNameT o) f = None.
Proof. done. Qed.
Lemma checked_i64 k : i64 k -> checked k = Some k.
Proof. intros H. unfold checked. by rewrite (proj2 (is_i64_ok k) H). Qed.
Lemma computes_simplify hs : one_definition hs -> forall s n d, computes hs s n d -> forall fuel, d <= fuel ->
  simplify_sterm s (note_hyps hs ∅) fuel = SLitT n.
Proof.
  intros Hone s n d H. induction H as [n d|i r n d h Hin Hh Hc IH|op x y m n k d Hx IHx Hy IHy Hop Hk]; intros fuel Hf.
  - apply simplify_lit.
  - destruct fuel as [|fuel]; [lia|]. cbn [simplify_sterm]. rewrite (note_hyps_one hs Hone ∅ i h r Hin Hh). apply IH. lia.
  - destruct fuel as [|[|fuel]]; [lia..|]. assert (Hd : d <= fuel) by lia. assert (Hd' : S d <= S fuel) by lia.
    cbn [simplify_sterm]. rewrite simplify_name, (IHx fuel Hd), try_arithmetic_name.
    specialize (IHy (S fuel) Hd'). cbn [simplify_sterm] in IHy. rewrite IHy.
    assert (Hta : try_arithmetic (SAppT (SNameT op) (SLitT m)) (SLitT n) = Some (SLitT k)).
    { destruct Hop as [[-> ->]|[[-> ->]|[[-> ->]|[(-> & H0 & ->)|(-> & H0 & -> & Hq)]]]]; cbn;
        try (rewrite checked_i64 by done; done).
      - rewrite (proj2 (Z.eqb_neq n 0) H0), checked_i64 by done. done.
      - rewrite (proj2 (Z.eqb_neq n 0) H0). unfold checked_rem. by rewrite (proj2 (is_i64_ok _) Hq). }
    rewrite Hta. done.
Qed.
(** Arithmetic over literals and once-defined variables, nested at most 1000 deep, is decided: the
    goal is accepted exactly when the two values agree. *)
Theorem C62_arithmetic : forall hs c a b m n, one_definition hs -> is_eq c a b ->
  computes hs a m 1000 -> computes hs b n 1000 ->
  (simp_check_goal (goal_of hs c) = true <-> m = n).
Proof.
  intros hs c a b m n Hone Hc Ha Hb. unfold simp_check_goal, decompose_goal.
  rewrite (decompose_goal_of hs ∅ c a b Hc), (extract_equality_enc c a b Hc), !term_to_sterm_enc.
  rewrite (computes_simplify hs Hone a m _ Ha FUEL) by (unfold FUEL; lia). rewrite (computes_simplify hs Hone b n _ Hb FUEL) by (unfold FUEL; lia).
  rewrite sterm_eqb_ok. split; congruence.
Qed.

(** ** Examples *)
Definition sv (i : Z) := SVarT i.
Definition sl (n : Z) := SLitT n.
Definition sbin (o : string) (a b : sterm) := SAppT (SAppT (SNameT o) a) b.
Definition seq (a b : sterm) := SBIN "Eq" (enc a) (enc b).
(** [x = 2 -> y = x * 3 -> f (y - 1) = f (11 / 2)]. *)
Definition simp_ex : term := goal_of [seq (sv 0) (sl 2); seq (sv 1) (sbin "mul" (sv 0) (sl 3))]
  (seq (SAppT (SNameT "f") (sbin "sub" (sv 1) (sl 1))) (SAppT (SNameT "f") (sbin "div" (sl 11) (sl 2)))).
Example C62_sound_ex : ints_ok simp_ex /\ simp_check_goal simp_ex = true.
Proof. split; [cbn; unfold i64; lia|by vm_compute]. Qed.
(** An interpretation in which all this means what it says: values are integers or functions. *)
Inductive sval := VNum (n : Z) | VOp (s : string) | VPart (s : string) (n : Z) | VBad.
Definition std_interp : interp := {| dom := sval; lit := VNum; nam := VOp; app := fun f a =>
  match f, a with
  | VOp s, VNum n => VPart s n
  | VPart s x, VNum y => VNum (if String.eqb s "add" then x + y else if String.eqb s "sub" then x - y else if String.eqb s "mul" then x * y
      else if String.eqb s "div" then Z.quot x y else Z.rem x y)
  | _, _ => VBad
  end |}.
Example C62_interp_ex : arithmetical std_interp.
Proof. intros x y _ _. by repeat split. Qed.
Example C62_reflexive_ex : simp_check_goal (goal_of [seq (sv 0) (sl 1)] (seq (sbin "div" (sv 1) (sl 0)) (sbin "div" (sv 1) (sl 0)))) = true.
Proof. by vm_compute. Qed.
Lemma simp_ex_one : one_definition [seq (sv 0) (sl 2); seq (sv 1) (sbin "mul" (sv 0) (sl 3))].
Proof.
  intros h h' i r r' Hh Hh' H H'. apply extract_equality_enc in H, H'.
  destruct Hh as [<-|[<-|[]]], Hh' as [<-|[<-|[]]]; cbn [seq SBIN] in H, H'; injection H as H1 H2; injection H' as H3 H4; try congruence.
  - change (enc (SLitT 2) = enc r) in H2. change (enc (SLitT 2) = enc r') in H4. apply enc_inj in H2, H4. congruence.
  - change (enc (sbin "mul" (sv 0) (sl 3)) = enc r) in H2. change (enc (sbin "mul" (sv 0) (sl 3)) = enc r') in H4. apply enc_inj in H2, H4. congruence.
Qed.
Lemma computes_mono hs s n d : computes hs s n d -> forall e, d <= e -> computes hs s n e.
Proof.
  induction 1 as [n d|i r n d h Hin Hh Hc IH|op x y m n k d Hx IHx Hy IHy Hop Hk]; intros e He.
  - constructor.
  - destruct e as [|e]; [lia|]. apply (comp_var hs i r n e h Hin Hh). apply IH. lia.
  - destruct e as [|[|e]]; [lia..|]. apply (comp_bin hs op x y m n k e); [apply IHx; lia|apply IHy; lia|done|done].
Qed.
Example C62_arithmetic_ex :
  computes [seq (sv 0) (sl 2); seq (sv 1) (sbin "mul" (sv 0) (sl 3))] (sbin "sub" (sv 1) (sl 1)) 5 1000 /\
  computes [seq (sv 0) (sl 2); seq (sv 1) (sbin "mul" (sv 0) (sl 3))] (sbin "div" (sl 11) (sl 2)) 5 1000 /\
  computes [] (sbin "mod" (sl (-7)) (sl 4)) (-3) 1000.
Proof.
  split; [|split]; apply computes_mono with (d := 10); try (apply Nat.leb_le; reflexivity).
  - apply comp_bin with (m := 6%Z) (n := 1%Z); [|constructor|by right; left|unfold i64; lia].
    apply comp_var with (r := sbin "mul" (sv 0) (sl 3)) (h := seq (sv 1) (sbin "mul" (sv 0) (sl 3))); [by right; left|constructor|].
    apply comp_bin with (m := 2%Z) (n := 3%Z); [|constructor|by right; right; left|unfold i64; lia].
    apply comp_var with (r := sl 2) (h := seq (sv 0) (sl 2)); [by left|constructor|constructor].
  - apply comp_bin with (m := 11%Z) (n := 2%Z); [constructor|constructor|right; right; right; left; done|unfold i64; lia].
  - apply comp_bin with (m := (-7)%Z) (n := 4%Z); [constructor|constructor|right; right; right; right|unfold i64; lia].
    split; [done|]. split; [done|]. split; [done|]. unfold i64. by vm_compute.
Qed.

(** ** Limits *)

(** A hypothesis can be overridden by a later one about the same variable, so that a goal that is
    literally one of the hypotheses is refused: [x = 1 -> x = y -> x = 1]. *)
Theorem C62_assumption_refuted : exists hs c a b, is_eq c a b /\ In c hs /\ follows hs a b /\ simp_check_goal (goal_of hs c) = false.
Proof.
  exists [seq (sv 0) (sl 1); seq (sv 0) (sv 1)], (seq (sv 0) (sl 1)), (sv 0), (sl 1).
  split; [constructor|]. split; [by left|]. split; [|by vm_compute].
  intros I env _ H. apply (H (seq (sv 0) (sl 1))); [by left|constructor].
Qed.
(** Equations are only used when the variable stands on the left: [1 = x -> x = 1] is refused. *)
Theorem C62_orientation_refuted : exists hs c a b, is_eq c a b /\ one_definition hs /\ follows hs a b /\ simp_check_goal (goal_of hs c) = false.
Proof.
  exists [seq (sl 1) (sv 0)], (seq (sv 0) (sl 1)), (sv 0), (sl 1).
  split; [constructor|]. split; [|split; [|by vm_compute]].
  - intros h h' i r r' [<-|[]] _ H _. apply extract_equality_enc in H. discriminate H.
  - intros I env _ H. symmetry. apply (H (seq (sl 1) (sv 0))); [by left|constructor].
Qed.
(** [0 + 0 + ... + 0 = 0] with 501 nested additions is refused: the fuel is a bound on the depth of
    the expression. *)
Fixpoint zeros (n : nat) : sterm := match n with O => sl 0 | S n => sbin "add" (zeros n) (sl 0) end.
Lemma zeros_computes n : computes [] (zeros n) 0 (n + n).
Proof.
  induction n as [|n IH]; [constructor|]. replace (S n + S n) with (S (S (n + n))) by lia.
  apply (comp_bin [] "add" (zeros n) (sl 0) 0 0 0); [done|constructor|by left|unfold i64; lia].
Qed.
Theorem C62_depth_refuted : exists c a b, is_eq c a b /\ ints_ok c /\ computes [] a 0 1002 /\ computes [] b 0 1002 /\
  simp_check_goal (goal_of [] c) = false.
Proof.
  exists (seq (zeros 501) (sl 0)), (zeros 501), (sl 0). split; [constructor|]. split.
  { assert (H : forall n, ints_ok (enc (zeros n))).
    { intros n. induction n as [|n IH]; [unfold zeros, sl; cbn; unfold i64; lia|]. cbn [zeros enc sbin SAPP ints_ok SNAME SLIT sl]. unfold i64. repeat split; try done; lia. }
    specialize (H 501). unfold seq. cbn [ints_ok SBIN SAPP SNAME]. repeat split; try done; cbn; unfold i64; lia. }
  split; [apply (zeros_computes 501)|]. split; [constructor|]. by vm_compute.
Qed.

(** The module says "The default fuel is 1000 simplification steps". The fuel bounds the depth of the
    recursion only: under the hypothesis [x = x + x] more than 2^333 calls are made, whatever else
    is known, so that the check of [x = 0] does not come to an end. *)
Lemma cyclic_grows su : su !! 0%Z = Some (sbin "add" (sv 0) (sv 0)) -> forall n k, n * 3 <= k -> (2 ^ N.of_nat n <= simplify_calls (sv 0) su k)%N.
Proof.
  intros H n. induction n as [|n IH]; intros k Hk.
  - destruct k; cbn -[N.add]; [lia|]. rewrite H. lia.
  - destruct k as [|[|[|k]]]; [lia..|].
    assert (E : (simplify_calls (sv 0) su k + simplify_calls (sv 0) su (S k) <= simplify_calls (sv 0) su (S (S (S k))))%N).
    { unfold sv at 3. remember (S k) as k1. cbn [simplify_calls]. rewrite H. unfold sbin. cbn [simplify_calls].
      change (SVarT 0) with (sv 0). subst k1. set (W := match try_arithmetic _ _ with Some _ => _ | None => _ end).
      set (V := simplify_calls (sv 0) su (S k)). cbn [simplify_calls]. set (V0 := simplify_calls (sv 0) su k). lia. }
    pose proof (IH k ltac:(lia)). pose proof (IH (S k) ltac:(lia)). rewrite Nat2N.inj_succ, N.pow_succ_r'. lia.
Qed.
Theorem C62_steps_refuted : exists goal su c, decompose_goal goal = (su, c) /\ is_eq c (sv 0) (sl 0) /\ ints_ok goal /\ (2 ^ 333 <= simplify_calls (sv 0) su FUEL)%N.
Proof.
  exists (goal_of [seq (sv 0) (sbin "add" (sv 0) (sv 0))] (seq (sv 0) (sl 0))),
    (note_hyps [seq (sv 0) (sbin "add" (sv 0) (sv 0))] ∅), (seq (sv 0) (sl 0)).
  split; [apply (decompose_goal_of _ _ _ (sv 0) (sl 0)); constructor|]. split; [constructor|].
  split; [cbn; unfold i64; lia|].
  change (2 ^ 333)%N with (2 ^ N.of_nat 333)%N. apply cyclic_grows; [by vm_compute|]. unfold FUEL. lia.
Qed.
