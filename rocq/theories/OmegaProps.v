(** C41: integer arithmetic verdicts are sound. *)
From Coq Require Import ZArith QArith Qcanon String List Lia Lqa.
From stdpp Require Import gmap strings list.
From Verif Require Import SynModel SynSem LinMap LinExprModel LinExprProofs LiaModel LiaProofs LiaProps OmegaModel OmegaProofs.
Local Open Scope Z_scope.
Local Open Scope string_scope.
Local Open Scope list_scope.

(** Values and constraints over the integers and over the rationals, read off the data. *)
Definition int_value (e : zexpr) (w : Z -> Z) : Z :=
  fold_right (fun p acc => snd p * w (fst p) + acc) (lc e) (map_to_list (lm e)).
Definition int_satisfies (w : Z -> Z) (c : zcons) : Prop :=
  if zc_strict c then int_value (zc_expr c) w < 0 else int_value (zc_expr c) w <= 0.
Definition rat_value (e : zexpr) (w : Z -> Qc) : Qc :=
  fold_right (fun p acc => q_of_Z (snd p) * w (fst p) + acc)%Qc (q_of_Z (lc e)) (map_to_list (lm e)).
Definition rat_satisfies (w : Z -> Qc) (c : zcons) : Prop :=
  (if zc_strict c then rat_value (zc_expr c) w < 0 else rat_value (zc_expr c) w <= 0)%Qc.

Lemma zmsum_list (m : gmap Z Z) (w : Z -> Qc) :
  msum (Q2Qc 0) Qcplus Qcmult (q_of_Z <$> m) w = fold_right (fun p acc => q_of_Z (snd p) * w (fst p) + acc)%Qc 0%Qc (map_to_list m).
Proof.
  rewrite (msum_on _ _ _ _ _ _ Qcrt ((map_to_list m).*1)).
  - assert (H : forall l, (forall k c, (k, c) ∈ l -> m !! k = Some c) ->
      lsum (Q2Qc 0) Qcplus l.*1 (fun k => get (Q2Qc 0) (q_of_Z <$> m) k * w k)%Qc = fold_right (fun p acc => q_of_Z (snd p) * w (fst p) + acc)%Qc 0%Qc l).
    { induction l as [|[k c] l IH]; intros Hl; [done|]. cbn. rewrite IH by (intros; apply Hl; by right).
      rewrite get_zq. unfold get. rewrite (Hl k c) by left. done. }
    apply H. intros k c. apply elem_of_map_to_list.
  - apply NoDup_fst_map_to_list.
  - intros k [c Hc]. rewrite lookup_fmap in Hc. destruct (m !! k) as [x|] eqn:E; [|done].
    apply elem_of_list_fmap. exists (k, x). split; [done|]. by apply elem_of_map_to_list.
Qed.
Lemma rat_value_eval e w : rat_value e w = zeval e w.
Proof.
  unfold rat_value, eval. cbn. rewrite zmsum_list. induction (map_to_list (lm e)) as [|p l IH]; cbn; [ring|]. rewrite IH. ring.
Qed.
Lemma int_value_inject e w : q_of_Z (int_value e w) = zeval e (fun i => q_of_Z (w i)).
Proof.
  rewrite <- rat_value_eval. unfold int_value, rat_value. induction (map_to_list (lm e)) as [|p l IH]; cbn; [done|].
  by rewrite q_of_Z_add, q_of_Z_mul, IH.
Qed.
Lemma int_value_eval e w : int_value e w = ieval e w.
Proof.
  assert (E : q_of_Z (int_value e w) = q_of_Z (ieval e w)) by (rewrite int_value_inject; apply zeval_inject).
  assert (A : (q_of_Z (int_value e w) <= q_of_Z (ieval e w))%Qc) by (rewrite E; apply Qcle_refl).
  assert (B : (q_of_Z (ieval e w) <= q_of_Z (int_value e w))%Qc) by (rewrite E; apply Qcle_refl).
  pose proof (proj1 (q_of_Z_le _ _) A). pose proof (proj1 (q_of_Z_le _ _) B). lia.
Qed.
Lemma rat_satisfies_zsat w c : rat_satisfies w c <-> zsat c w.
Proof. unfold rat_satisfies, zsat. by rewrite rat_value_eval. Qed.
Lemma int_satisfies_zsat w c : int_satisfies w c <-> zsat c (fun i => q_of_Z (w i)).
Proof. unfold int_satisfies, zsat. rewrite <- int_value_inject, <- q_of_Z_0. destruct (zc_strict c); [by rewrite q_of_Z_lt|by rewrite q_of_Z_le]. Qed.

Lemma omega_zsat order cs w : (forall c, In c cs -> zsat c w) -> omega_unsat order cs = false.
Proof.
  intros Hs. unfold omega_unsat. destruct cs as [|c0 cs0]; [done|]. remember (c0 :: cs0) as cs eqn:E. clear E c0 cs0.
  assert (Hn : forall c, In c (normalize <$> cs) -> zsat c w).
  { intros c (c' & -> & Hc)%elem_of_list_In%elem_of_list_fmap. apply normalize_sat, Hs. by apply elem_of_list_In. }
  destruct (existsb z_contradiction _) eqn:Ec; [|by eapply z_eliminate_all_sound].
  apply existsb_exists in Ec as (c & Hc & Hx). by rewrite (zsat_not_contradiction c w) in Hx by auto.
Qed.

(** ** C41 *)
(** If an integer assignment satisfies every constraint, the system is not declared unsatisfiable,
    whatever order the variables are eliminated in. *)
Theorem C41_sound order cs w : (forall c, In c cs -> int_satisfies w c) -> omega_unsat order cs = false.
Proof. intros Hs. eapply omega_zsat. intros c Hc. apply int_satisfies_zsat. by apply Hs. Qed.

(** The verdict on non-strict systems is exactly unsatisfiability over the rationals. *)
Theorem C41_rational order cs : (forall l, Permutation (order l) l) ->
  (forall c, In c cs -> zc_strict c = false) -> (forall c k x, In c cs -> lm (zc_expr c) !! k = Some x -> x <> 0) ->
  (omega_unsat order cs = true <-> ~ exists w, forall c, In c cs -> rat_satisfies w c).
Proof.
  intros Ho Hst Hz. split.
  - intros Hu (w & Hw). rewrite (omega_zsat order cs w) in Hu; [done|]. intros c Hc. by apply rat_satisfies_zsat, Hw.
  - intros Hn. destruct (omega_unsat order cs) eqn:Hu; [done|]. exfalso. apply Hn. clear Hn.
    unfold omega_unsat in Hu. destruct cs as [|c0 cs0]; [by exists (fun _ => 0%Qc)|]. remember (c0 :: cs0) as cs eqn:E. clear E c0 cs0.
    destruct (existsb z_contradiction _) eqn:Ec; [done|].
    apply z_eliminate_all_complete in Hu as (w & Hw).
    + exists w. intros c Hc. apply rat_satisfies_zsat. apply normalize_sat, Hw. apply elem_of_list_In, elem_of_list_fmap.
      exists c. split; [done|]. by apply elem_of_list_In.
    + intros c Hc. pose proof Hc as Hc'. apply elem_of_list_In, elem_of_list_fmap in Hc' as (c' & -> & Hc'). apply elem_of_list_In in Hc'.
      split; [|split].
      * rewrite normalize_strict. by apply Hst.
      * apply normalize_wf. intros k x. by apply Hz.
      * intros k Hk. eapply Permutation_in; [symmetry; apply Ho|]. by eapply z_vars_in.
Qed.
Theorem C41_order_invariant order order' cs : (forall l, Permutation (order l) l) -> (forall l, Permutation (order' l) l) ->
  (forall c, In c cs -> zc_strict c = false) -> (forall c k x, In c cs -> lm (zc_expr c) !! k = Some x -> x <> 0) ->
  omega_unsat order cs = omega_unsat order' cs.
Proof.
  intros H1 H2 Hs Hz. apply eq_true_iff_eq. rewrite (C41_rational order), (C41_rational order'); done.
Qed.

(** *** Goals *)
Notation zxval := (xval Z.add Z.mul Z.sub id).
Lemma reify_int_ok x st r st' : reify_int_linear x st = (r, st') -> in_ok st ->
  in_ok st' /\ ext st st' /\
  (forall e, r = Some e -> zwf e /\
     forall st'' rv rn w, ext st' st'' -> agrees st'' rv rn w -> xvars_above (-1000000) x ->
       zxval rv rn x = Some (ieval e w)).
Proof. apply (reify_ok _ _ _ _ _ _ _ _ Zth z_isz_spec z_one_nz z_opp_nz). Qed.
Lemma ieval_sub a b w : ieval (z_sub a b) w = ieval a w - ieval b w.
Proof. apply (eval_sub _ _ _ _ _ _ _ Zth z_isz_spec). Qed.
Lemma ieval_add a b w : ieval (z_add a b) w = ieval a w + ieval b w.
Proof. apply (eval_add _ _ _ _ _ _ _ Zth z_isz_spec). Qed.
Lemma ieval_const c w : ieval (z_const c) w = c.
Proof. apply (eval_const _ _ _ _ _ _ Zth). Qed.
Lemma ivars_bin op a b : vars_above (-1000000) (SBIN op a b) -> vars_above (-1000000) a /\ vars_above (-1000000) b.
Proof. cbn. destruct b; cbn; tauto. Qed.
Lemma holds_cmp other rv rn rel a b x y : In rel comparison_names -> zval rv rn a = Some x -> zval rv rn b = Some y ->
  (holds other rv rn (SBIN rel a b) <-> cmp rel x y (other (SBIN rel a b))).
Proof.
  intros Hr Ha Hb. assert (Hn : ((rel =? "Implies") || (rel =? "implies")) = false).
  { repeat destruct Hr as [<-|Hr]; try done. }
  cbn -[val]. by rewrite Hn, Ha, Hb.
Qed.
Lemma comparison_name t rel a b : extract_comparison t = Some (rel, a, b) -> In rel comparison_names.
Proof.
  unfold extract_comparison. destruct (extract_binary_app t) as [[[op l] r]|] eqn:E; [|done].
  destruct (existsb _ _) eqn:Ex; [|done]. intros [= <- <- <-]. apply existsb_exists in Ex as (s & Hs & ->%String.eqb_eq). done.
Qed.
Lemma hyp_constraint_sat rel a b w other c : In rel comparison_names -> cmp rel (ieval a w) (ieval b w) other ->
  In c (hyp_constraint rel a b) -> int_satisfies w c.
Proof.
  intros Hr Hc Hin. unfold int_satisfies. rewrite int_value_eval. unfold hyp_constraint in Hin.
  repeat (destruct Hr as [<-|Hr]; [cbn in Hin; destruct Hin as [<-|[]]; cbn [zc_strict zc_expr]; rewrite ?ieval_add, ?ieval_sub, ?ieval_const;
    unfold cmp in Hc; cbn in Hc; lia|]). destruct Hr.
Qed.
Lemma z_negated_spec rel a b w other c : In rel comparison_names -> z_negated_goal rel a b = Some c ->
  ~ cmp rel (ieval a w) (ieval b w) other -> int_satisfies w c.
Proof.
  intros Hr Hc Hn. unfold int_satisfies. rewrite int_value_eval. unfold z_negated_goal in Hc.
  repeat (destruct Hr as [<-|Hr]; [cbn in Hc; injection Hc as <-; cbn [zc_strict zc_expr]; rewrite ?ieval_add, ?ieval_sub, ?ieval_const;
    unfold cmp in Hn; cbn in Hn; lia|]). destruct Hr.
Qed.
Lemma cmp_dec rel x y other : In rel comparison_names -> cmp rel x y other \/ ~ cmp rel x y other.
Proof. intros Hr. repeat (destruct Hr as [<-|Hr]; [unfold cmp; cbn; lia|]). destruct Hr. Qed.

Lemma hyp_constraints_ok hs : forall st cs st', hyp_constraints hs st = (cs, st') -> in_ok st -> Forall (vars_above (-1000000)) hs ->
  in_ok st' /\ ext st st' /\
  forall st'' rv rn w other, ext st' st'' -> agrees st'' rv rn w -> Forall (holds other rv rn) hs -> forall c, In c cs -> int_satisfies w c.
Proof.
  induction hs as [|h hs IH]; intros st cs st'; cbn [hyp_constraints].
  - intros [= <- <-] Hok _. split; [done|]. split; [apply ext_refl|]. intros * _ _ _ c [].
  - intros E Hok (Hv & Hvs)%Forall_cons_1. destruct (extract_comparison h) as [[[rel l] r]|] eqn:Ec.
    2: { destruct (IH _ _ _ E Hok Hvs) as (A & B & C). split; [done|]. split; [done|].
         intros * X1 X2 (X3 & X4)%Forall_cons_1. by eapply C. }
    destruct (reify_int_linear (read l) st) as [ol st1] eqn:E1. destruct (reify_int_linear (read r) st1) as [orr st2] eqn:E2.
    destruct (hyp_constraints hs st2) as [cs2 st3] eqn:E3.
    apply reify_int_ok in E1 as (O1 & X1 & V1); [|done]. apply reify_int_ok in E2 as (O2 & X2 & V2); [|done].
    destruct (IH _ _ _ E3 O2 Hvs) as (A & B & C). injection E as <- <-.
    split; [done|]. split; [eapply ext_trans; [exact X1|eapply ext_trans; [exact X2|exact B]]|].
    intros st'' rv rn w other Y1 Y2 (Y3 & Y4)%Forall_cons_1 c Hin. apply in_app_iff in Hin as [Hin|Hin].
    2: by eapply C.
    destruct ol as [a|]; [|destruct Hin]. destruct orr as [b|]; [|destruct Hin].
    pose proof (comparison_name _ _ _ _ Ec) as Hrel. pose proof (comparison_inv _ _ _ _ Ec) as ->.
    apply ivars_bin in Hv as [Hvl Hvr].
    destruct (V1 _ eq_refl) as [_ F1]. destruct (V2 _ eq_refl) as [_ F2].
    assert (G1 : zval rv rn l = Some (ieval a w)).
    { rewrite val_read. eapply F1; [|done|by apply xvars_read]. eapply ext_trans; [exact X2|]. by eapply ext_trans. }
    assert (G2 : zval rv rn r = Some (ieval b w)).
    { rewrite val_read. eapply F2; [|done|by apply xvars_read]. by eapply ext_trans. }
    rewrite (holds_cmp other rv rn rel l r _ _ Hrel G1 G2) in Y3. by eapply hyp_constraint_sat.
Qed.
Lemma conclude_ok order cs st concl other rv rn : conclude order cs st concl = true -> in_ok st -> vars_above (-1000000) concl ->
  (forall st'' w, ext st st'' -> agrees st'' rv rn w -> forall c, In c cs -> int_satisfies w c) -> holds other rv rn concl.
Proof.
  unfold conclude. intros E Hok Hv Hcs. destruct (extract_comparison concl) as [[[rel l] r]|] eqn:Ec; [|done].
  destruct (reify_int_linear (read l) st) as [ol st1] eqn:E1. destruct (reify_int_linear (read r) st1) as [orr st2] eqn:E2.
  destruct ol as [a|]; [|done]. destruct orr as [b|]; [|done]. destruct (z_negated_goal rel a b) as [c|] eqn:En; [|done].
  apply reify_int_ok in E1 as (O1 & X1 & V1); [|done]. apply reify_int_ok in E2 as (O2 & X2 & V2); [|done].
  destruct (V1 _ eq_refl) as [_ F1]. destruct (V2 _ eq_refl) as [_ F2].
  pose proof (comparison_name _ _ _ _ Ec) as Hrel. pose proof (comparison_inv _ _ _ _ Ec) as ->. apply ivars_bin in Hv as [Hvl Hvr].
  destruct (agrees_exists st2 rv rn O2) as (w & Hw).
  assert (G1 : zval rv rn l = Some (ieval a w)) by (rewrite val_read; eapply F1; [|done|by apply xvars_read]; done).
  assert (G2 : zval rv rn r = Some (ieval b w)) by (rewrite val_read; eapply F2; [|done|by apply xvars_read]; apply ext_refl).
  rewrite (holds_cmp other rv rn rel l r _ _ Hrel G1 G2).
  destruct (cmp_dec rel (ieval a w) (ieval b w) (other (SBIN rel l r)) Hrel) as [|Hn]; [done|]. exfalso.
  rewrite (C41_sound order (cs ++ [c]) w) in E; [done|]. intros c' [Hc'|[<-|[]]]%in_app_iff.
  - eapply (Hcs st2 w); [by eapply ext_trans|done|done].
  - by eapply z_negated_spec.
Qed.
Lemma peel_holds t : forall hs c other rv rn, peel_implications t = (hs, c) ->
  (Forall (holds other rv rn) hs -> holds other rv rn c) -> holds other rv rn t.
Proof.
  remember (tsize t) as n eqn:E. assert (Hn : (tsize t <= n)%nat) by lia. clear E. revert t Hn.
  induction n as [|n IH]; intros t Hn hs c other rv rn; [destruct t; cbn in Hn; lia|]. intros E H.
  assert (Hbase : (hs, c) = ([], t) -> holds other rv rn t). { intros [= -> ->]. by apply H. }
  destruct t as [f b|s|z|s|k]; try (by apply Hbase; symmetry). destruct f as [f1 f2|?|?|?|?]; try (by apply Hbase; symmetry).
  destruct f1 as [|c1|?|?|?]; try (by apply Hbase; symmetry). destruct f2 as [h1 a|?|?|?|?]; try (by apply Hbase; symmetry).
  destruct h1 as [i1 o|?|?|?|?]; try (by apply Hbase; symmetry). destruct i1 as [|c2|?|?|?]; try (by apply Hbase; symmetry).
  cbn [peel_implications] in E.
  destruct (extract_implication (TApp (TApp (TGlobal c1) (TApp (TApp (TGlobal c2) o) a)) b)) as [[a' b']|] eqn:Ei; [|by apply Hbase; symmetry].
  unfold extract_implication in Ei. destruct (extract_binary_app _) as [[[op l] r]|] eqn:Eb; [|done].
  apply binary_app_inv in Eb. destruct ((op =? "Implies") || (op =? "implies")) eqn:Eo; [|done]. injection Ei as <- <-.
  injection Eb as -> -> -> -> ->. destruct (peel_implications r) as [hs' c'] eqn:Ep. injection E as <- <-.
  cbn -[tsize]. rewrite Eo. intros Ha. eapply (IH r); [cbn in Hn; lia|exact Ep|]. intros Hf. apply H. by constructor.
Qed.
Lemma peel_vars k t : forall hs c, peel_implications t = (hs, c) -> vars_above k t -> Forall (vars_above k) hs /\ vars_above k c.
Proof.
  remember (tsize t) as n eqn:E. assert (Hn : (tsize t <= n)%nat) by lia. clear E. revert t Hn.
  induction n as [|n IH]; intros t Hn hs c; [destruct t; cbn in Hn; lia|]. intros E H.
  assert (Hbase : (hs, c) = ([], t) -> Forall (vars_above k) hs /\ vars_above k c). { intros [= -> ->]. done. }
  destruct t as [f b|s|z|s|m]; try (by apply Hbase; symmetry). destruct f as [f1 f2|?|?|?|?]; try (by apply Hbase; symmetry).
  destruct f1 as [|c1|?|?|?]; try (by apply Hbase; symmetry). destruct f2 as [h1 a|?|?|?|?]; try (by apply Hbase; symmetry).
  destruct h1 as [i1 o|?|?|?|?]; try (by apply Hbase; symmetry). destruct i1 as [|c2|?|?|?]; try (by apply Hbase; symmetry).
  cbn [peel_implications] in E.
  destruct (extract_implication (TApp (TApp (TGlobal c1) (TApp (TApp (TGlobal c2) o) a)) b)) as [[a' b']|] eqn:Ei; [|by apply Hbase; symmetry].
  destruct (peel_implications b) as [hs' c'] eqn:Ep. injection E as <- <-.
  assert (Hab : vars_above k a /\ vars_above k b) by (cbn in H; destruct b; cbn; tauto).
  destruct (IH b ltac:(cbn in Hn; lia) _ _ Ep (proj2 Hab)) as [A B]. split; [|done]. constructor; [apply Hab|done].
Qed.
Lemma peel_leaf t c : peel_implications t = ([], c) -> c = t.
Proof.
  destruct t as [f b|s|z|s|m]; cbn; try (by intros [= <-]). destruct f as [f1 f2|?|?|?|?]; try (by intros [= <-]).
  destruct f1 as [|c1|?|?|?]; try (by intros [= <-]). destruct f2 as [h1 a|?|?|?|?]; try (by intros [= <-]).
  destruct h1 as [i1 o|?|?|?|?]; try (by intros [= <-]). destruct i1 as [|c2|?|?|?]; try (by intros [= <-]).
  destruct (extract_implication _) as [[? ?]|]; [|by intros [= <-]]. destruct (peel_implications b). done.
Qed.

(** A goal accepted by the tactic, hypotheses included, holds for all integer values of its
    variables and names, whatever is made of the parts the tactic does not understand. *)
Theorem C41_goal order goal other rv rn : vars_above (-1000000) goal -> omega_accepts order goal = true -> holds other rv rn goal.
Proof.
  intros Hv. unfold omega_accepts, extract_implications. destruct (peel_implications goal) as [hs concl] eqn:Ep.
  destruct (peel_vars _ _ _ _ Ep Hv) as [Hvh Hvc].
  assert (Hgen : (let '(cs, st) := hyp_constraints hs in_new in conclude order cs st concl) = true -> holds other rv rn goal).
  { destruct (hyp_constraints hs in_new) as [cs st] eqn:Eh. intros E. eapply peel_holds; [exact Ep|]. intros Hhs.
    destruct (hyp_constraints_ok hs _ _ _ Eh in_new_ok Hvh) as (A & B & C).
    eapply conclude_ok; [exact E|done|done|]. intros st'' w X1 X2 c Hc. by eapply C. }
  destruct hs as [|h hs]; [|done]. apply peel_leaf in Ep. subst concl. done.
Qed.

(** *** Examples *)
Definition vx : term := SVAR 0.
Definition vy : term := SNAME "y".
(** x > 1 implies (2y >= x implies y >= 1) *)
Definition omega_goal : term :=
  SBIN "implies" (SBIN "Gt" vx (SLIT 1)) (SBIN "Implies" (SBIN "Ge" (SBIN "mul" (SLIT 2) vy) vx) (SBIN "Ge" vy (SLIT 1))).
Example C41_goal_ex : vars_above (-1000000) omega_goal /\ omega_accepts id omega_goal = true /\ lia_accepts omega_goal = false.
Proof. split; [cbn; repeat split; lia|]. split; by vm_compute. Qed.
(** [3x <= 10] implies [x <= 3], as the module documentation says. *)
Example C41_goal_doc_ex : omega_accepts id (SBIN "implies" (SBIN "Le" (SBIN "mul" (SLIT 3) vx) (SLIT 10)) (SBIN "Le" vx (SLIT 3))) = true.
Proof. by vm_compute. Qed.
(** x <= y - 1, y <= x: unsatisfiable; x <= y, y <= x satisfiable. *)
Definition z_1 : zcons := ZC (LE 1 {[0 := 1; 1 := -1]}) false.
Definition z_2 : zcons := ZC (LE 0 {[0 := -1; 1 := 1]}) false.
Definition z_3 : zcons := ZC (LE 0 {[0 := 2; 1 := -2]}) false.
Example C41_rational_ex : omega_unsat id [z_1; z_2] = true /\ omega_unsat id [z_3; z_2] = false /\ omega_unsat (@rev Z) [z_1; z_2] = true.
Proof. split; [|split]; by vm_compute. Qed.
Example C41_sound_ex : forall c, In c [z_3; z_2] -> int_satisfies (fun _ => 5) c.
Proof. intros c [<-|[<-|[]]]; vm_compute; discriminate. Qed.
Example C41_rational_hyps_ex : (forall c, In c [z_1; z_2] -> zc_strict c = false) /\ (forall c k x, In c [z_1; z_2] -> lm (zc_expr c) !! k = Some x -> x <> 0).
Proof.
  split; [intros c [<-|[<-|[]]]; done|]. intros c k x [<-|[<-|[]]]; cbn;
    (intros [[_ <-]|[_ H]]%lookup_insert_Some; [discriminate|]; apply lookup_singleton_Some in H as [_ <-]; discriminate).
Qed.

(** The procedure is not complete over the integers: the module documentation lists
    "[2x = 5] is unsatisfiable", and this is not detected. *)
Lemma perm_single (order : list Z -> list Z) : (forall l, Permutation (order l) l) -> forall x, order [x] = [x].
Proof. intros Ho x. apply Permutation_singleton_r. apply Ho. Qed.
Theorem C41_complete_refuted : exists cs, (~ exists w, forall c, In c cs -> int_satisfies w c) /\
  forall order, (forall l, Permutation (order l) l) -> omega_unsat order cs = false.
Proof.
  exists [ZC (LE (-5) {[0 := 2]}) false; ZC (LE 5 {[0 := -2]}) false]. split.
  - intros (w & Hw). pose proof (Hw _ (or_introl eq_refl)) as H1. pose proof (Hw _ (or_intror (or_introl eq_refl))) as H2.
    unfold int_satisfies, int_value in H1, H2. cbn [zc_strict zc_expr lc lm] in H1, H2.
    rewrite map_to_list_singleton in H1, H2. cbn in H1, H2. lia.
  - intros order Ho. unfold omega_unsat.
    set (cs := normalize <$> _). assert (E : existsb z_contradiction cs = false) by (by vm_compute). rewrite E.
    assert (E2 : z_vars cs = [0]) by (by vm_compute). rewrite E2, (perm_single order Ho). by vm_compute.
Qed.
Theorem C41_goal_complete_refuted :
  let goal := SBIN "implies" (SBIN "Le" (SBIN "mul" (SLIT 2) vx) (SLIT 5))
    (SBIN "implies" (SBIN "Ge" (SBIN "mul" (SLIT 2) vx) (SLIT 5)) (SBIN "Le" vx (SLIT 0))) in
  (forall other rv rn, holds other rv rn goal) /\
  forall order, (forall l, Permutation (order l) l) -> omega_accepts order goal = false.
Proof.
  split.
  - intros other rv rn. cbn. unfold cmp. cbn. lia.
  - intros order Ho. unfold omega_accepts. cbn -[omega_unsat reify_int_linear]. unfold conclude. cbn -[omega_unsat].
    unfold omega_unsat. set (cs := normalize <$> _). assert (E : existsb z_contradiction cs = false) by (by vm_compute). rewrite E.
    assert (E2 : z_vars cs = [0]) by (by vm_compute). rewrite E2, (perm_single order Ho). by vm_compute.
Qed.
(** Strictness is dropped by elimination, so even a rationally unsatisfiable strict system
    ([x < 0] and [0 < x]) goes undetected when it is passed in directly. *)
Theorem C41_strict_refuted : exists cs, (~ exists w, forall c, In c cs -> rat_satisfies w c) /\
  forall order, (forall l, Permutation (order l) l) -> omega_unsat order cs = false.
Proof.
  exists [ZC (LE 0 {[0 := 1]}) true; ZC (LE 0 {[0 := -1]}) true]. split.
  - intros (w & Hw). pose proof (Hw _ (or_introl eq_refl)) as H1. pose proof (Hw _ (or_intror (or_introl eq_refl))) as H2.
    apply rat_satisfies_zsat in H1, H2. unfold zsat in H1, H2. cbn [zc_strict zc_expr] in H1, H2.
    rewrite <- rat_value_eval in H1, H2. unfold rat_value in H1, H2. cbn [lc lm] in H1, H2. rewrite map_to_list_singleton in H1, H2.
    cbn [fold_right fst snd] in H1, H2. unfold q_of_Z, inject_Z in *. qlra.
  - intros order Ho. unfold omega_unsat.
    set (cs := normalize <$> _). assert (E : existsb z_contradiction cs = false) by (by vm_compute). rewrite E.
    assert (E2 : z_vars cs = [0]) by (by vm_compute). rewrite E2, (perm_single order Ho). by vm_compute.
Qed.
(** As for [lia], a variable index in the interner's range is identified with a name. *)
Example C41_goal_refuted : exists goal, omega_accepts id goal = true /\ exists rv rn, ~ holds (fun _ => False) rv rn goal.
Proof.
  exists (SBIN "Le" (SVAR (-1000000)) (SNAME "n")). split; [by vm_compute|].
  exists (fun _ => 1), (fun _ => 0). cbn. unfold cmp. cbn. by intros H.
Qed.
