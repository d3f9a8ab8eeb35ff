(** C41, single comparisons: without hypotheses the integer procedure is exact on linear goals. *)
From Coq Require Import ZArith QArith Qcanon String List Lia Lqa.
From stdpp Require Import gmap strings list.
From Verif Require Import SynModel SynSem LinMap LinExprModel LinExprProofs LiaModel LiaProofs LiaProps OmegaModel OmegaProofs OmegaProps.
Local Open Scope Z_scope.
Local Open Scope string_scope.
Local Open Scope list_scope.

Lemma zconstant_scale (e : zexpr) k : is_constant e = true -> is_constant (z_scale e k) = true.
Proof.
  rewrite !is_constant_empty. unfold z_scale, l_scale. destruct (z_isz k); [done|]. cbn. intros ->. by rewrite omap_empty.
Qed.
Lemma zconstant_add (a b : zexpr) : is_constant a = true -> is_constant b = true -> is_constant (z_add a b) = true.
Proof. rewrite !is_constant_empty. cbn. intros -> ->. by rewrite merge_empty. Qed.
Lemma zconstant_sub (a b : zexpr) : is_constant a = true -> is_constant b = true -> is_constant (z_sub a b) = true.
Proof. rewrite !is_constant_empty. cbn. intros -> ->. by rewrite fmap_empty, merge_empty. Qed.
Lemma zground_reify t : ground t -> forall st, exists e, reify_int_linear (read t) st = (Some e, st) /\ is_constant e = true.
Proof.
  induction 1 as [n|op a b Hop Ha IHa Hb IHb]; intros st.
  - eexists. split; [reflexivity|]. by apply is_constant_empty.
  - destruct (IHa st) as (ea & Ea & Ca). destruct (IHb st) as (eb & Eb & Cb).
    unfold reify_int_linear in *. rewrite read_bin. cbn [reify_lin].
    destruct Hop as [<-|[<-|[<-|[]]]]; cbn [String.eqb Ascii.eqb Bool.eqb orb]; rewrite Ea, Eb.
    + eexists. split; [reflexivity|]. by apply zconstant_add.
    + eexists. split; [reflexivity|]. by apply zconstant_sub.
    + rewrite Ca. eexists. split; [reflexivity|]. by apply zconstant_scale.
Qed.
Lemma zlinear_reify t : linear t -> forall st, exists e st', reify_int_linear (read t) st = (Some e, st').
Proof.
  induction 1 as [n|i|s|a b Ha IHa Hb IHb|a b Ha IHa Hb IHb|a b Ha Hb IHb|a b Ha IHa Hb]; intros st.
  - by do 2 eexists.
  - by do 2 eexists.
  - cbn. destruct (intern st s) as [st' i]. by do 2 eexists.
  - destruct (IHa st) as (ea & sa & Ea). destruct (IHb sa) as (eb & sb & Eb). unfold reify_int_linear in *.
    rewrite read_bin. cbn [reify_lin String.eqb Ascii.eqb Bool.eqb orb]. rewrite Ea, Eb. by do 2 eexists.
  - destruct (IHa st) as (ea & sa & Ea). destruct (IHb sa) as (eb & sb & Eb). unfold reify_int_linear in *.
    rewrite read_bin. cbn [reify_lin String.eqb Ascii.eqb Bool.eqb orb]. rewrite Ea, Eb. by do 2 eexists.
  - destruct (zground_reify a Ha st) as (ea & Ea & Ca). destruct (IHb st) as (eb & sb & Eb). unfold reify_int_linear in *.
    rewrite read_bin. cbn [reify_lin String.eqb Ascii.eqb Bool.eqb orb]. rewrite Ea, Eb, Ca. by do 2 eexists.
  - destruct (IHa st) as (ea & sa & Ea). destruct (zground_reify b Hb sa) as (eb & Eb & Cb). unfold reify_int_linear in *.
    rewrite read_bin. cbn [reify_lin String.eqb Ascii.eqb Bool.eqb orb]. rewrite Ea, Eb, Cb. destruct (is_constant ea); by do 2 eexists.
Qed.
(** One constraint with a rational solution has an integer one. *)
Lemma one_constraint (e : zexpr) (w : Z -> Qc) : wf 0 e -> rat_satisfies w (ZC e false) -> exists v, ieval e v <= 0.
Proof.
  intros Hwf Hs. destruct (decide (lm e = ∅)) as [E|E].
  - exists (fun _ => 0). apply rat_satisfies_zsat in Hs. unfold zsat in Hs. cbn [zc_strict zc_expr] in Hs. rewrite <- rat_value_eval in Hs.
    unfold rat_value in Hs. rewrite E, map_to_list_empty in Hs. cbn in Hs. rewrite <- q_of_Z_0, q_of_Z_le in Hs.
    rewrite <- int_value_eval. unfold int_value. rewrite E, map_to_list_empty. cbn. done.
  - apply map_choose in E as (k & c & Hk). pose proof (Hwf k c Hk) as Hc.
    exists (fun i => if Z.eqb i k then - Z.sgn c * Z.abs (lc e) else 0).
    rewrite <- int_value_eval. unfold int_value.
    assert (Hp : Permutation (map_to_list (lm e)) ((k, c) :: map_to_list (delete k (lm e)))).
    { rewrite <- (insert_id (lm e) k c Hk) at 1. rewrite <- insert_delete_insert. apply map_to_list_insert. apply lookup_delete. }
    assert (Hf : forall l z, fold_right (fun p acc => snd p * (if Z.eqb (fst p) k then - Z.sgn c * Z.abs (lc e) else 0) + acc) z l =
      z + fold_right (fun p acc => snd p * (if Z.eqb (fst p) k then - Z.sgn c * Z.abs (lc e) else 0) + acc) 0 l).
    { induction l as [|p l IH]; intros z; cbn; [lia|]. rewrite IH. lia. }
    rewrite Hf.
    assert (Hperm : forall l l' : list (Z * Z), Permutation l l' -> fold_right (fun p acc => snd p * (if Z.eqb (fst p) k then - Z.sgn c * Z.abs (lc e) else 0) + acc) 0 l =
      fold_right (fun p acc => snd p * (if Z.eqb (fst p) k then - Z.sgn c * Z.abs (lc e) else 0) + acc) 0 l').
    { induction 1; cbn; lia. }
    rewrite (Hperm _ _ Hp). cbn [fold_right fst snd]. rewrite Z.eqb_refl.
    assert (H0 : forall l : list (Z * Z), (forall p, In p l -> fst p <> k) -> fold_right (fun p acc => snd p * (if Z.eqb (fst p) k then - Z.sgn c * Z.abs (lc e) else 0) + acc) 0 l = 0).
    { induction l as [|p l IH]; intros Hl; [done|]. cbn. rewrite IH by (intros q Hq; apply Hl; by right).
      rewrite (proj2 (Z.eqb_neq (fst p) k)) by (apply Hl; by left). lia. }
    rewrite H0. 2: { intros [i x] Hin. apply elem_of_list_In, elem_of_map_to_list in Hin. cbn. intros ->. by rewrite lookup_delete in Hin. }
    assert (Hcs : c * (- Z.sgn c * Z.abs (lc e)) = - Z.abs c * Z.abs (lc e)).
    { destruct (Z.lt_trichotomy c 0) as [Hx|[Hx|Hx]]; [rewrite (Z.sgn_neg c), (Z.abs_neq c) by lia; lia|subst c; done|rewrite (Z.sgn_pos c), (Z.abs_eq c) by lia; lia]. }
    rewrite Hcs. assert (1 <= Z.abs c) by lia. nia.
Qed.

(** A comparison of two linear expressions is accepted exactly when it holds for all integers. *)
Theorem C41_goal_decides order rel a b other : (forall l, Permutation (order l) l) -> In rel comparison_names -> linear a -> linear b ->
  vars_above (-1000000) a -> vars_above (-1000000) b ->
  (omega_accepts order (SBIN rel a b) = true <-> forall rv rn, holds other rv rn (SBIN rel a b)).
Proof.
  intros Ho Hrel Ha Hb Hva Hvb. split.
  { intros H rv rn. eapply C41_goal; [|exact H]. cbn. destruct b; cbn in *; tauto. }
  intros Hall. unfold omega_accepts.
  assert (Hpl : extract_implications (SBIN rel a b) = None).
  { unfold extract_implications. assert (E : peel_implications (SBIN rel a b) = ([], SBIN rel a b)); [|by rewrite E].
    cbn [peel_implications SBIN SAPP]. repeat (destruct Hrel as [<-|Hrel]; [reflexivity|]). destruct Hrel. }
  rewrite Hpl. unfold conclude. rewrite comparison_of by done.
  destruct (zlinear_reify a Ha in_new) as (lhs & st1 & E1). destruct (zlinear_reify b Hb st1) as (rhs & st2 & E2).
  rewrite E1, E2.
  apply reify_int_ok in E1 as (O1 & X1 & V1); [|apply in_new_ok]. destruct (V1 _ eq_refl) as [W1 F1].
  apply reify_int_ok in E2 as (O2 & X2 & V2); [|done]. destruct (V2 _ eq_refl) as [W2 F2].
  apply xvars_read in Hva, Hvb.
  assert (Hneg : exists c, z_negated_goal rel lhs rhs = Some c /\ zc_strict c = false /\ wf 0 (zc_expr c) /\
    forall w o, ieval (zc_expr c) w <= 0 -> ~ cmp rel (ieval lhs w) (ieval rhs w) o).
  { assert (Wx : wf 0 (z_sub rhs lhs) /\ wf 0 (z_sub lhs rhs)) by (split; by apply (wf_sub _ _ _ _ z_isz_spec z_opp_nz)).
    assert (Wk : wf 0 (z_const 1)) by apply wf_const.
    repeat (destruct Hrel as [<-|Hrel]; [eexists; split; [reflexivity|]; split; [reflexivity|]; split;
      [cbn [zc_expr]; first [apply Wx|apply (wf_add _ _ _ z_isz_spec); [apply Wx|apply Wk]]
      |intros w o; cbn [zc_expr]; rewrite ?ieval_add, ?ieval_sub, ?ieval_const; unfold cmp; cbn; lia]|]). destruct Hrel. }
  destruct Hneg as (c & -> & Hst & Hwf & Hc). cbn [app].
  apply C41_rational; [done| | |].
  - by intros c' [<-|[]].
  - intros c' k x [<-|[]]. apply Hwf.
  - intros (w & Hw). specialize (Hw c (or_introl eq_refl)). destruct c as [e st]. cbn [zc_strict zc_expr] in *. subst st.
    destruct (one_constraint e w Hwf Hw) as (v & Hv).
    set (rn := fun s => match in_map st2 !! s with Some i => v i | None => 0 end).
    assert (Hag : agrees st2 v rn v). { split; [|done]. intros s i Hs. unfold rn. by rewrite Hs. }
    specialize (Hall v rn). rewrite (holds_cmp other v rn rel a b (ieval lhs v) (ieval rhs v) Hrel) in Hall.
    + by apply (Hc v (other (SBIN rel a b))).
    + rewrite val_read. by apply (F1 st2).
    + rewrite val_read. apply (F2 st2); [apply ext_refl|done|done].
Qed.
(** [x + n <= n + x] is accepted, [2x <= x] is not. *)
Example C41_goal_decides_ex : omega_accepts id (SBIN "Le" (SBIN "add" vx (SNAME "n")) (SBIN "add" (SNAME "n") vx)) = true /\
  omega_accepts id (SBIN "Le" (SBIN "mul" (SLIT 2) vx) vx) = false /\ linear (SBIN "add" vx (SNAME "n")).
Proof. split; [by vm_compute|]. split; [by vm_compute|]. repeat constructor. Qed.
