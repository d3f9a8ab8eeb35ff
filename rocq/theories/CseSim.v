(** Simulation for common subexpression elimination. *)

From Coq Require Import ZArith List Bool Lia.
From Verif Require Import SymModel SymProofs CseModel CseProofs.
Import ListNotations.
Open Scope Z_scope.

(** ** The programs covered *)

(** No short-circuit operator outside call arguments. *)
Fixpoint strict (e : expr) : bool :=
  match e with
  | EBin And _ _ | EBin Or _ _ => false
  | EBin _ l r => strict l && strict r
  | ENot a => strict a
  | _ => true
  end.

Definition mem (x : symbol) (l : list symbol) : bool := existsb (Nat.eqb x) l.

(** Names assigned by [Set]. *)
Fixpoint sets_stmt (s : stmt) : list symbol :=
  match s with
  | SSet x _ => [x]
  | SIf _ t e => flat_map sets_stmt t ++ match e with Some b => flat_map sets_stmt b | None => [] end
  | SWhile _ b => flat_map sets_stmt b
  | _ => []
  end.

(** [tame T bound s]: no loop; a declaration introduces a name not declared
    before, and one that is never assigned unless its first value is a literal
    or a name; an assignment is to a declared name of [T].  The result is the
    names declared so far. *)
Section Tame.
Variable T : list symbol.
Fixpoint tame (bound : list symbol) (s : stmt) : option (list symbol) :=
  let fix block bound b :=
    match b with
    | [] => Some bound
    | s :: b => match tame bound s with Some bound' => block bound' b | None => None end
    end in
  match s with
  | SLet x v =>
      if negb (mem x bound) && (x <? 1000)%nat && strict v && (negb (is_non_trivial v) || negb (mem x T))
      then Some (x :: bound) else None
  | SSet x _ => if mem x bound && mem x T then Some bound else None
  | SIf _ t e =>
      match block bound t, match e with Some b => block bound b | None => Some bound end with
      | Some b1, Some b2 => Some (b1 ++ b2)
      | _, _ => None
      end
  | SReturn _ => Some bound
  | _ => None
  end.
Fixpoint tame_block (bound : list symbol) (b : list stmt) : option (list symbol) :=
  match b with
  | [] => Some bound
  | s :: b => match tame bound s with Some bound' => tame_block bound' b | None => None end
  end.
End Tame.
Definition tame_func (f : func) : bool :=
  forallb (fun x => (x <? 1000)%nat) (f_params f) &&
  match tame_block (flat_map sets_stmt (f_body f)) (f_params f) (f_body f) with
  | Some _ => true | None => false
  end.

Lemma tame_if T bound c t e :
  tame T bound (SIf c t e) =
  match tame_block T bound t, match e with Some b => tame_block T bound b | None => Some bound end with
  | Some b1, Some b2 => Some (b1 ++ b2)
  | _, _ => None
  end.
Proof. reflexivity. Qed.

Lemma cse_if c t e st0 :
  cse_stmt (SIf c t e) st0 =
  let (t', st1) := cse_block t st0 in
  match e with
  | Some b =>
      let (b', st2) := cse_block b (restore st0 st1) in
      ([SIf c t' (Some b')],
       invalidate_block_writes b (invalidate_block_writes t (restore st0 st2)))
  | None => ([SIf c t' None], invalidate_block_writes t (restore st0 st1))
  end.
Proof. reflexivity. Qed.

(** ** Keys *)

Lemma mem_In x l : mem x l = true <-> In x l.
Proof.
  unfold mem. rewrite existsb_exists. split.
  - intros (y & Hy & E). apply Nat.eqb_eq in E. now subst.
  - intros H. exists x. split; [exact H|apply Nat.eqb_refl].
Qed.

Lemma op_eqb_eq a b : op_eqb a b = true <-> a = b.
Proof. destruct a, b; cbn; split; congruence. Qed.

Lemma key_eqb_eq a b : key_eqb a b = true <-> a = b.
Proof.
  revert b. induction a as [s|z|o l IHl r IHr|k IH]; intros [t|y|o' l' r'|k']; cbn [key_eqb];
    try (split; congruence).
  - rewrite Nat.eqb_eq. split; congruence.
  - rewrite Z.eqb_eq. split; congruence.
  - rewrite !andb_true_iff, op_eqb_eq, IHl, IHr. split; [intros [[-> ->] ->]; reflexivity|].
    intros [= -> -> ->]. auto.
  - rewrite IH. split; congruence.
Qed.

Definition not_val (v : value) : option value :=
  match v with VInt z => Some (VInt (Z.lnot z)) | VBool b => Some (VBool (negb b)) | _ => None end.

Fixpoint kval (r : env) (k : key) : option value :=
  match k with
  | KId s => r s
  | KInt z => Some (VInt z)
  | KBin o a b =>
      match kval r a, kval r b with Some x, Some y => binop o x y | _, _ => None end
  | KNot a => match kval r a with Some x => not_val x | None => None end
  end.

Definition le_on (P : symbol -> Prop) (r r' : env) : Prop :=
  forall s v, P s -> r s = Some v -> r' s = Some v.

Lemma kval_ext r r' k v :
  le_on (fun s => In s (key_symbols k)) r r' -> kval r k = Some v -> kval r' k = Some v.
Proof.
  revert v. induction k as [s|z|o a IHa b IHb|a IH]; intros v Hle H; cbn [kval key_symbols] in *.
  - apply Hle; [now left|exact H].
  - exact H.
  - destruct (kval r a) eqn:Ea; [|discriminate]. destruct (kval r b) eqn:Eb; [|discriminate].
    erewrite IHa; [|intros s w Hs; apply Hle; apply in_or_app; now left|reflexivity].
    erewrite IHb; [|intros s w Hs; apply Hle; apply in_or_app; now right|reflexivity]. exact H.
  - destruct (kval r a) eqn:Ea; [|discriminate].
    erewrite IH; [|exact Hle|reflexivity]. exact H.
Qed.

Lemma kval_bound r k v s : kval r k = Some v -> In s (key_symbols k) -> r s <> None.
Proof.
  revert v. induction k as [t|z|o a IHa b IHb|a IH]; intros v H Hs; cbn [kval key_symbols] in *.
  - destruct Hs as [->|[]]. congruence.
  - destruct Hs.
  - destruct (kval r a) eqn:Ea; [|discriminate]. destruct (kval r b) eqn:Eb; [|discriminate].
    apply in_app_or in Hs. destruct Hs; eauto.
  - destruct (kval r a) eqn:Ea; [|discriminate]. eauto.
Qed.

Lemma kval_eval p f r e k v :
  strict e = true -> compute_key e = Some k -> eval p f r e = Some v -> kval r k = Some v.
Proof.
  revert f k v. induction e as [z|s|o a IHa b IHb|a IH|g args|]; intros f k v Hs Hk H;
    try discriminate; (destruct f as [|f]; [discriminate|]).
  - injection Hk as <-. exact H.
  - injection Hk as <-. exact H.
  - cbn [compute_key] in Hk. destruct (compute_key a) as [ka|]; [|discriminate].
    destruct (compute_key b) as [kb|]; [|discriminate]. injection Hk as <-.
    rewrite eval_S in H. cbn [kval].
    destruct o; try discriminate; cbn [strict] in Hs; apply andb_true_iff in Hs; destruct Hs as [Sa Sb];
      (destruct (eval p f r a) as [x|] eqn:Ea; [|discriminate]);
      (destruct (eval p f r b) as [y|] eqn:Eb; [|discriminate]);
      rewrite (IHa f ka x Sa eq_refl Ea), (IHb f kb y Sb eq_refl Eb); exact H.
  - cbn [compute_key] in Hk. destruct (compute_key a) as [ka|]; [|discriminate].
    injection Hk as <-. rewrite eval_S in H. cbn [kval].
    destruct (eval p f r a) as [x|] eqn:Ea; [|discriminate].
    rewrite (IH f ka x Hs eq_refl Ea). exact H.
Qed.

(** ** Extending the environment *)

Section Ext.
Variables p q : program.

Lemma ext_eval f :
  (forall f' g vs v, (f' < f)%nat -> call p f' g vs = Some v -> cl q g vs v) ->
  (forall r r' e v, le_on (fun _ => True) r r' -> eval p f r e = Some v -> ev q r' e v) /\
  (forall r r' es vs, le_on (fun _ => True) r r' -> evals p f r es = Some vs -> evs q r' es vs).
Proof.
  induction f as [|f IHf]; intros Hc. { split; intros; discriminate. }
  destruct IHf as [IE IEs]. { intros f' g vs v Hlt. apply Hc. lia. }
  split.
  - intros r r' e v Hle H. destruct e as [z|s|o a b|a|g args|].
    + rewrite eval_S in H. injection H as <-. apply ev_num.
    + rewrite eval_S in H. apply ev_id. now apply Hle.
    + eapply (bin_transfer p f r o a b v (fun _ _ => True)); eauto.
    + eapply not_transfer; eauto.
    + rewrite eval_S in H. destruct (evals p f r args) as [vs|] eqn:Ea; [|discriminate].
      eapply ev_call; [eapply IEs; eauto|]. eapply Hc; [|exact H]. lia.
    + rewrite eval_S in H. discriminate.
  - intros r r' es vs Hle H. rewrite evals_S in H. destruct es as [|e es].
    + injection H as <-. apply evs_nil.
    + destruct (eval p f r e) eqn:E1; [|discriminate].
      destruct (evals p f r es) eqn:E2; [|discriminate]. injection H as <-.
      apply evs_cons; eauto.
Qed.
End Ext.

Lemma ev_ext q r r' e v : le_on (fun _ => True) r r' -> ev q r e v -> ev q r' e v.
Proof.
  intros Hle [f Hf]. refine (proj1 (ext_eval q q f _) _ _ _ _ Hle Hf).
  intros f' g vs w _ H. now exists f'.
Qed.

(** ** The state *)

Definition dinv (s : cse_state) : Prop :=
  forall k x y, In (k, x) (cache s) -> In y (key_symbols k) -> In k (dget y (deps s)).

Lemma dget_dput_same x ks d : dget x (dput x ks d) = ks.
Proof. unfold dget, dput. cbn [find fst]. now rewrite Nat.eqb_refl. Qed.
Lemma dget_filter x y d : x <> y ->
  dget y (List.filter (fun c => negb (Nat.eqb (fst c) x)) d) = dget y d.
Proof.
  intros Hne. unfold dget. induction d as [|[z ks] d IH]; [reflexivity|]. cbn [List.filter fst].
  destruct (Nat.eqb_spec z x) as [->|]; cbn [negb find fst].
  - rewrite (proj2 (Nat.eqb_neq x y) Hne). exact IH.
  - destruct (Nat.eqb z y); [reflexivity|exact IH].
Qed.
Lemma dget_dput_other x y ks d : x <> y -> dget y (dput x ks d) = dget y d.
Proof.
  intros Hne. unfold dput. transitivity (dget y (List.filter (fun c => negb (Nat.eqb (fst c) x)) d)).
  - unfold dget. cbn [find fst]. now rewrite (proj2 (Nat.eqb_neq x y) Hne).
  - now apply dget_filter.
Qed.

Lemma dget_fold k l d y :
  (forall j, In j (dget y d) -> In j (dget y (fold_left (fun d x => dput x (dget x d ++ [k]) d) l d))) /\
  (In y l -> In k (dget y (fold_left (fun d x => dput x (dget x d ++ [k]) d) l d))).
Proof.
  revert d. induction l as [|x l IH]; intros d; cbn [fold_left]; [split; auto; intros []|].
  destruct (IH (dput x (dget x d ++ [k]) d)) as [H1 H2].
  destruct (Nat.eq_dec x y) as [->|Hne].
  - rewrite dget_dput_same in H1. split; intros.
    + apply H1. apply in_or_app. now left.
    + apply H1. apply in_or_app. right. now left.
  - rewrite dget_dput_other in H1 by exact Hne. split; [exact H1|].
    intros [->|Hin]; [congruence|auto].
Qed.

Lemma kput_in k s l c : In c (kput k s l) -> c = (k, s) \/ In c l.
Proof.
  intros [H|H]; [now left|right]. apply filter_In in H. apply H.
Qed.

Lemma dinv_insert s k x : dinv s -> dinv (cse_insert s k x).
Proof.
  intros Hd k' x' y Hin Hy. cbn [cse_insert cache deps] in *.
  apply kput_in in Hin. destruct (dget_fold k (nodup Nat.eq_dec (key_symbols k)) (deps s) y) as [H1 H2].
  destruct Hin as [[= -> ->]|Hin].
  - apply H2. now apply nodup_In.
  - apply H1. eapply Hd; eauto.
Qed.

Lemma invalidate_in s x c : In c (cache (invalidate s x)) -> In c (cache s).
Proof. cbn. intros H. apply filter_In in H. apply H. Qed.

Lemma invalidate_free s x k y :
  dinv s -> In (k, y) (cache (invalidate s x)) -> ~ In x (key_symbols k).
Proof.
  intros Hd Hin Hx. cbn [invalidate cache] in Hin. apply filter_In in Hin. destruct Hin as [Hin Hn].
  cbn [fst] in Hn. specialize (Hd _ _ _ Hin Hx).
  rewrite negb_true_iff in Hn. rewrite <- not_true_iff_false in Hn. apply Hn.
  apply existsb_exists. exists k. split; [exact Hd|]. now apply key_eqb_eq.
Qed.

Lemma dinv_invalidate s x : dinv s -> dinv (invalidate s x).
Proof.
  intros Hd k z y Hin Hy.
  assert (x <> y). { intros ->. exact (invalidate_free _ _ _ _ Hd Hin Hy). }
  cbn [invalidate deps]. rewrite dget_filter by assumption.
  eapply Hd; [eapply invalidate_in; exact Hin|exact Hy].
Qed.

(** What remains after the writes of a block are invalidated. *)
Definition cleared (l : list symbol) (s s' : cse_state) : Prop :=
  dinv s -> dinv s' /\ counter s' = counter s /\
  forall k x, In (k, x) (cache s') ->
    In (k, x) (cache s) /\ forall y, In y l -> ~ In y (key_symbols k).

Lemma cleared_nil s : cleared [] s s.
Proof. intros Hd. repeat split; auto. Qed.
Lemma cleared_app l l' s s1 s2 : cleared l s s1 -> cleared l' s1 s2 -> cleared (l ++ l') s s2.
Proof.
  intros H1 H2 Hd. destruct (H1 Hd) as (D1 & C1 & I1). destruct (H2 D1) as (D2 & C2 & I2).
  split; [exact D2|]. split; [congruence|]. intros k x Hin.
  destruct (I2 _ _ Hin) as [Hin1 F2]. destruct (I1 _ _ Hin1) as [Hin0 F1].
  split; [exact Hin0|]. intros y Hy. apply in_app_or in Hy. destruct Hy; auto.
Qed.

Definition opt_all (P : stmt -> Prop) (e : option (list stmt)) : Prop :=
  match e with Some b => Forall P b | None => True end.

Section StmtInd.
Variable P : stmt -> Prop.
Hypothesis Hlet : forall x e, P (SLet x e).
Hypothesis Hset : forall x e, P (SSet x e).
Hypothesis Hif : forall c t e, Forall P t -> opt_all P e -> P (SIf c t e).
Hypothesis Hwhile : forall c b, Forall P b -> P (SWhile c b).
Hypothesis Hret : forall e, P (SReturn e).
Hypothesis Hother : P SOther.
Fixpoint stmt_ind2 (s : stmt) : P s :=
  let fix all (b : list stmt) : Forall P b :=
    match b with
    | [] => Forall_nil P
    | s :: b => Forall_cons s (stmt_ind2 s) (all b)
    end in
  match s with
  | SLet x e => Hlet x e
  | SSet x e => Hset x e
  | SIf c t e =>
      Hif c t e (all t)
        (match e as e0 return opt_all P e0 with
         | Some b => all b | None => I end)
  | SWhile c b => Hwhile c b (all b)
  | SReturn e => Hret e
  | SOther => Hother
  end.
End StmtInd.

Lemma cleared_fold b s :
  Forall (fun x => forall s, cleared (sets_stmt x) s (invalidate_stmt x s)) b ->
  cleared (flat_map sets_stmt b) s (fold_left (fun s x => invalidate_stmt x s) b s).
Proof.
  intros H. revert s. induction H as [|x b Hx Hb IH]; intros s; cbn [flat_map fold_left].
  - apply cleared_nil.
  - eapply cleared_app; [apply Hx|apply IH].
Qed.

Lemma cleared_stmt x : forall s, cleared (sets_stmt x) s (invalidate_stmt x s).
Proof.
  induction x as [x e|x e|c t e Ht He|c b Hb|e|] using stmt_ind2; intros s;
    try apply cleared_nil.
  - intros Hd. cbn [sets_stmt invalidate_stmt]. split; [now apply dinv_invalidate|].
    split; [reflexivity|]. intros k y Hin. split; [eapply invalidate_in; exact Hin|].
    intros z [<-|[]]. eapply invalidate_free; eauto.
  - cbn [sets_stmt invalidate_stmt]. destruct e as [b|].
    + eapply cleared_app; apply cleared_fold; assumption.
    + rewrite app_nil_r. now apply cleared_fold.
  - cbn [sets_stmt invalidate_stmt]. now apply cleared_fold.
Qed.
Lemma cleared_block b s : cleared (flat_map sets_stmt b) s (invalidate_block_writes b s).
Proof. apply cleared_fold. apply List.Forall_forall. intros x _. apply cleared_stmt. Qed.

(** The counter only grows. *)
Lemma hoist_counter counts k e w :
  (counter (rstate w) <= counter (rstate (snd (hoist counts k e w))))%nat.
Proof.
  unfold hoist. destruct k as [k|]; [|cbn; lia].
  destruct (is_non_trivial e && _); cbn [snd rstate cse_insert counter]; lia.
Qed.
Lemma rewrite_counter counts e : forall w,
  (counter (rstate w) <= counter (rstate (snd (rewrite_expr counts e w))))%nat.
Proof.
  induction e as [z|s|o a IHa b IHb|a IH|g args|]; intros w; cbn [rewrite_expr];
    match goal with |- context [match ?x with Some s => (EId s, w) | None => _ end] => destruct x end;
    try (cbn [snd]; lia); try apply hoist_counter.
  - specialize (IHa w). destruct (rewrite_expr counts a w) as [a' w1].
    specialize (IHb w1). destruct (rewrite_expr counts b w1) as [b' w2]. cbn [snd] in *.
    eapply Nat.le_trans; [|apply hoist_counter]. lia.
  - specialize (IH w). destruct (rewrite_expr counts a w) as [a' w1]. cbn [snd] in *.
    eapply Nat.le_trans; [|apply hoist_counter]. lia.
Qed.
Lemma remember_counter s e x : counter (remember_value s e x) = counter s.
Proof.
  unfold remember_value. destruct (compute_key e); [|reflexivity]. destruct (is_non_trivial e); reflexivity.
Qed.
Lemma inv_counter b : forall s, counter (invalidate_block_writes b s) = counter s.
Proof.
  unfold invalidate_block_writes.
  assert (H : forall x s, counter (invalidate_stmt x s) = counter s).
  { induction x as [x e|x e|c t e Ht He|c b' Hb|e|] using stmt_ind2; intros s; try reflexivity.
    - cbn [invalidate_stmt].
      assert (forall l s, Forall (fun x => forall s, counter (invalidate_stmt x s) = counter s) l ->
                counter (fold_left (fun st s0 => invalidate_stmt s0 st) l s) = counter s) as HF.
      { intros l s0 Hl. revert s0. induction Hl as [|y l Hy Hl IH]; intros s0; [reflexivity|].
        cbn [fold_left]. now rewrite IH, Hy. }
      destruct e; rewrite ?HF by assumption; reflexivity.
    - cbn [invalidate_stmt]. revert s. induction Hb as [|y l Hy Hl IH]; intros s0; [reflexivity|].
        cbn [fold_left]. now rewrite IH, Hy. }
  induction b as [|x b IH]; intros s; cbn [fold_left]; [reflexivity|]. now rewrite IH, H.
Qed.

Lemma cse_counter_block b :
  Forall (fun x => forall s, (counter s <= counter (snd (cse_stmt x s)))%nat) b ->
  forall s, (counter s <= counter (snd (cse_block b s)))%nat.
Proof.
  induction 1 as [|x b Hx Hb IH]; intros s; cbn [cse_block]; [cbn; lia|].
  specialize (Hx s). destruct (cse_stmt x s) as [y s1]. specialize (IH s1).
  destruct (cse_block b s1) as [z s2]. cbn [snd] in *. lia.
Qed.
Lemma cse_counter_stmt x : forall s, (counter s <= counter (snd (cse_stmt x s)))%nat.
Proof.
  induction x as [x e|x e|c t e Ht He|c b Hb|e|] using stmt_ind2; intros s;
    try (cbn; lia).
  - cbn [cse_stmt]. unfold cse_let. destruct (existsb _ _).
    + pose proof (rewrite_counter (subkeys e) e (RW [] s [])) as H.
      destruct (rewrite_expr _ e _) as [e' w]. cbn [snd rstate] in *. now rewrite remember_counter.
    + cbn [snd]. now rewrite remember_counter.
  - rewrite cse_if. pose proof (cse_counter_block t Ht s) as H1.
    destruct (cse_block t s) as [t' s1]. destruct e as [b|].
    + pose proof (cse_counter_block b He (restore s s1)) as H2.
      destruct (cse_block b (restore s s1)) as [b' s2]. cbn [snd restore counter] in *.
      rewrite !inv_counter. cbn [restore counter]. lia.
    + cbn [snd] in *. rewrite inv_counter. exact H1.
  - change (cse_stmt (SWhile c b) s) with
      (let (b', st1) := cse_block b s in
       ([SWhile c b'], invalidate_block_writes b (restore s st1))).
    pose proof (cse_counter_block b Hb s) as H1. destruct (cse_block b s) as [b' s1].
    cbn [snd] in *. rewrite inv_counter. exact H1.
Qed.
Lemma cse_counter b s : (counter s <= counter (snd (cse_block b s)))%nat.
Proof. apply cse_counter_block. apply List.Forall_forall. intros x _. apply cse_counter_stmt. Qed.

Lemma tame_sets_block T b :
  Forall (fun s => forall bound bound', tame T bound s = Some bound' ->
    forall x, In x (sets_stmt s) -> In x T) b ->
  forall bound bound', tame_block T bound b = Some bound' ->
    forall x, In x (flat_map sets_stmt b) -> In x T.
Proof.
  induction 1 as [|s b Hs Hb IH]; intros bound bound' H x Hx; [destruct Hx|].
  cbn [tame_block flat_map] in *. destruct (tame T bound s) eqn:E; [|discriminate].
  apply in_app_or in Hx. destruct Hx; eauto.
Qed.
Lemma tame_sets_stmt T s : forall bound bound', tame T bound s = Some bound' ->
  forall x, In x (sets_stmt s) -> In x T.
Proof.
  induction s as [x e|x e|c t e Ht He|c b Hb|e|] using stmt_ind2; intros bound bound' H y Hy;
    try (destruct Hy; fail).
  - cbn [tame] in H. destruct (mem x bound && mem x T) eqn:E; [|discriminate].
    destruct Hy as [<-|[]]. apply andb_true_iff in E. now apply mem_In.
  - rewrite tame_if in H. destruct (tame_block T bound t) eqn:E1; [|discriminate].
    destruct e as [b|].
    + destruct (tame_block T bound b) eqn:E2; [|discriminate].
      cbn [sets_stmt] in Hy. apply in_app_or in Hy.
      destruct Hy as [Hy|Hy]; [exact (tame_sets_block T t Ht _ _ E1 _ Hy)|exact (tame_sets_block T b He _ _ E2 _ Hy)].
    + cbn [sets_stmt] in Hy. rewrite app_nil_r in Hy. exact (tame_sets_block T t Ht _ _ E1 _ Hy).
  - discriminate.
Qed.
Lemma tame_sets T b bound bound' : tame_block T bound b = Some bound' ->
  forall x, In x (flat_map sets_stmt b) -> In x T.
Proof. apply tame_sets_block. apply List.Forall_forall. intros x _. apply tame_sets_stmt. Qed.

(** ** The invariant *)

Definition good (T : list symbol) (r' : env) (c : key * symbol) : Prop :=
  ~ In (snd c) T /\ exists v, kval r' (fst c) = Some v /\ r' (snd c) = Some v.

Definition envs (bound : list symbol) (n : nat) (r r' : env) : Prop :=
  (forall x, In x bound -> (x < 1000)%nat) /\
  (forall s v, r s = Some v -> In s bound) /\
  (forall s, (s < 1000)%nat -> r' s = r s) /\
  (forall m, (n <= m)%nat -> r' (temp m) = None).

Definition inv (T bound : list symbol) (r r' : env) (s : cse_state) : Prop :=
  (forall x, In x T -> (x < 1000)%nat) /\
  envs bound (counter s) r r' /\ dinv s /\ Forall (good T r') (cache s).

Lemma envs_le bound n r r' : envs bound n r r' -> le_on (fun _ => True) r r'.
Proof.
  intros (H1 & H2 & H3 & _) s v _ H. rewrite H3; [exact H|]. apply H1. eauto.
Qed.

Lemma good_frame T r' r'' c :
  le_on (fun s => In s (key_symbols (fst c)) \/ s = snd c) r' r'' -> good T r' c -> good T r'' c.
Proof.
  intros Hle (Hs & v & Hk & Hv). split; [exact Hs|]. exists v. split.
  - eapply kval_ext; [|exact Hk]. intros s w Hin. apply Hle. now left.
  - apply Hle; [now right|exact Hv].
Qed.

Lemma le_upd (P : symbol -> Prop) r x v : (P x -> r x = None) -> le_on P r (upd r x v).
Proof.
  intros Hn s w Hp Hs. unfold upd. destruct (Nat.eqb_spec s x) as [->|]; [|exact Hs].
  rewrite (Hn Hp) in Hs. discriminate.
Qed.

Lemma kget_in k l s : kget k l = Some s -> In (k, s) l.
Proof.
  unfold kget. destruct (find _ l) as [[k' s']|] eqn:E; [|discriminate]. intros [= ->].
  apply find_some in E. destruct E as [Hin Heq]. apply key_eqb_eq in Heq. cbn [fst] in Heq.
  now subst.
Qed.

Lemma good_hit T r r' c e f p v :
  le_on (fun _ => True) r r' ->
  good T r' c -> strict e = true -> compute_key e = Some (fst c) -> eval p f r e = Some v ->
  r' (snd c) = Some v.
Proof.
  intros Hle (_ & w & Hk & Hw) Hs Hc He.
  pose proof (kval_eval p f r e _ v Hs Hc He) as Hv.
  apply (kval_ext r r') in Hv; [|intros s u _; now apply Hle]. congruence.
Qed.

Lemma strict_bin o a b a' b' :
  strict (EBin o a b) = true -> strict a' = true -> strict b' = true -> strict (EBin o a' b') = true.
Proof. intros H Ha Hb. destruct o; try discriminate; cbn [strict]; now rewrite Ha, Hb. Qed.
Lemma strict_bin_inv o a b : strict (EBin o a b) = true -> strict a = true /\ strict b = true.
Proof. destruct o; try discriminate; cbn [strict]; apply andb_true_iff. Qed.

Section Sim.
Variables (p q : program) (T : list symbol) (F : nat).
Hypothesis calls : forall f g vs v, (f < F)%nat -> call p f g vs = Some v -> cl q g vs v.

Lemma sim_eval f r r' e v :
  (f <= F)%nat -> le_on (fun _ => True) r r' -> eval p f r e = Some v -> ev q r' e v.
Proof.
  intros Hf Hle. apply (proj1 (ext_eval p q f ltac:(intros f' g vs w Hlt; apply calls; lia)) _ _ _ _ Hle).
Qed.

Lemma ex_app r l l' r1 o : ex q r l (r1, None) -> ex q r1 l' o -> ex q r (l ++ l') o.
Proof.
  intros H H'. destruct H as [f Hf]. revert f r Hf. induction l as [|s l IH]; intros f r Hf;
    (destruct f as [|f]; [discriminate|]); rewrite exec_S in Hf; cbn [app].
  - injection Hf as ->. exact H'.
  - destruct (step q f r s) as [[r2 [w|]]|] eqn:Es; try discriminate.
    eapply ex_cons; [exists f; exact Es|]. eapply IH; eauto.
Qed.

Definition winv (bound : list symbol) (r r' : env) (w : rw) : Prop :=
  inv T bound r r' (rstate w) /\ Forall (good T r') (local w).

Definition emitted bound r r' (w w' : rw) (e' : expr) (v : value) : Prop :=
  exists r'' hs, hoisted w' = hoisted w ++ hs /\ ex q r' hs (r'', None) /\
    le_on (fun _ => True) r' r'' /\ winv bound r r'' w' /\ ev q r'' e' v /\ strict e' = true.

Lemma hoist_ok counts bound r r' w e e' v f :
  strict e = true -> eval p f r e = Some v ->
  winv bound r r' w -> ev q r' e' v -> strict e' = true ->
  emitted bound r r' w (snd (hoist counts (compute_key e) e' w))
    (fst (hoist counts (compute_key e) e' w)) v.
Proof.
  intros Hs He ((HT & Hen & Hd & Hc) & Hl) Hv Hs'. unfold hoist.
  assert (same : emitted bound r r' w w e' v).
  { exists r', []. rewrite app_nil_r. repeat split; auto; try apply ex_nil; try apply Hen.
    now intros s x _ Hx. }
  destruct (compute_key e) as [k|] eqn:Hk; [|exact same].
  destruct (is_non_trivial e' && _); [|exact same]. cbn [fst snd].
  set (n := counter (rstate w)). set (r'' := upd r' (temp n) v).
  pose proof (envs_le _ _ _ _ Hen) as Hle0.
  destruct Hen as (E1 & E2 & E3 & E4).
  assert (Hnone : r' (temp n) = None) by (apply E4; unfold n; lia).
  assert (Hle : le_on (fun _ => True) r' r'') by (apply le_upd; auto).
  assert (Hnew : good T r'' (k, temp n)).
  { split; [cbn; intros Hin; apply HT in Hin; unfold temp in Hin; lia|]. exists v. cbn [fst snd]. split.
    - pose proof (kval_eval p f r e k v Hs Hk He) as H.
      eapply kval_ext; [|exact H]. intros s u _ Hu. apply Hle; [exact I|]. now apply Hle0.
    - unfold r'', upd. now rewrite Nat.eqb_refl. }
  assert (Hold : forall c, good T r' c -> good T r'' c).
  { intros c. apply good_frame. intros s u _. now apply Hle. }
  exists r'', [SLet (temp n) e']. cbn [hoisted rstate local]. split; [reflexivity|].
  split. { eapply ex_cons; [apply st_let; exact Hv|apply ex_nil]. }
  split; [exact Hle|]. split.
  - split; [split; [exact HT|split; [split; [exact E1|split; [exact E2|split]]|split]]|].
    + intros s Hlt. unfold r'', upd. destruct (Nat.eqb_spec s (temp n)); [unfold temp in *; lia|auto].
    + intros m Hm. cbn [rstate cse_insert counter] in Hm. fold n in Hm. unfold r'', upd.
      destruct (Nat.eqb_spec (temp m) (temp n)); [unfold temp in *; lia|]. apply E4. fold n. lia.
    + apply (dinv_insert (CSE (cache (rstate w)) (deps (rstate w)) (S n)) k (temp n)). exact Hd.
    + apply List.Forall_forall. intros c Hin. cbn [cse_insert cache] in Hin. apply kput_in in Hin.
      destruct Hin as [->|Hin]; [exact Hnew|]. apply Hold.
      rewrite List.Forall_forall in Hc. now apply Hc.
    + apply List.Forall_forall. intros c Hin. cbn [local] in Hin. apply kput_in in Hin.
      destruct Hin as [->|Hin]; [exact Hnew|]. apply Hold.
      rewrite List.Forall_forall in Hl. now apply Hl.
  - split; [|reflexivity]. apply ev_id. unfold r'', upd. now rewrite Nat.eqb_refl.
Qed.

Lemma emitted_trans bound r r' r1 w w1 w2 hs e' v :
  hoisted w1 = hoisted w ++ hs -> ex q r' hs (r1, None) -> le_on (fun _ => True) r' r1 ->
  emitted bound r r1 w1 w2 e' v -> emitted bound r r' w w2 e' v.
Proof.
  intros H1 Hx Hle (r2 & hs2 & H2 & Hx2 & Hle2 & R). exists r2, (hs ++ hs2).
  split; [rewrite H2, H1; now rewrite app_assoc|]. split; [eapply ex_app; eauto|].
  split; [|exact R]. intros s u Hs Hu. apply Hle2; [exact I|]. now apply Hle.
Qed.

Lemma hit_ok bound r r' w e s v f :
  strict e = true -> eval p f r e = Some v -> winv bound r r' w ->
  match compute_key e with
  | Some k' =>
      match kget k' (local w) with
      | Some s => Some s
      | None => if is_non_trivial e then kget k' (cache (rstate w)) else None
      end
  | None => None
  end = Some s ->
  emitted bound r r' w w (EId s) v.
Proof.
  intros Hs He Hw Hm. destruct (compute_key e) as [k|] eqn:Hk; [|discriminate].
  assert (Hg : good T r' (k, s)).
  { destruct Hw as ((_ & _ & _ & Hc) & Hl). rewrite List.Forall_forall in Hc, Hl.
    destruct (kget k (local w)) as [s'|] eqn:E.
    - injection Hm as <-. apply Hl. now apply kget_in.
    - destruct (is_non_trivial e); [|discriminate]. apply Hc. now apply kget_in. }
  exists r', []. rewrite app_nil_r. split; [reflexivity|]. split; [apply ex_nil|].
  split; [now intros x u _|]. split; [exact Hw|]. split; [|reflexivity]. apply ev_id.
  eapply (good_hit T r r' (k, s) e f p v); eauto.
  destruct Hw as ((_ & Hen & _) & _). exact (envs_le _ _ _ _ Hen).
Qed.

Lemma rewrite_ok counts bound r e : forall w r' f v,
  (f <= F)%nat -> strict e = true -> eval p f r e = Some v -> winv bound r r' w ->
  emitted bound r r' w (snd (rewrite_expr counts e w)) (fst (rewrite_expr counts e w)) v.
Proof.
  induction e as [z|s|o a IHa b IHb|a IH|g args|]; intros w r' f v Hf Hs He Hw;
    pose proof (fun s => hit_ok bound r r' w _ s v f Hs He Hw) as Hhit;
    cbn [rewrite_expr];
    try (match goal with |- context [match ?x with Some s => (EId s, _) | None => _ end] => destruct x eqn:Ehit end;
    [solve [apply Hhit; first [exact Ehit|reflexivity]]|clear Hhit Ehit]);
    assert (Hle : le_on (fun _ => True) r r')
         by (destruct Hw as ((_ & Hen & _) & _); exact (envs_le _ _ _ _ Hen)).
  - eapply hoist_ok; [exact Hs|exact He|exact Hw|eapply sim_eval; eauto|exact Hs].
  - eapply hoist_ok; [exact Hs|exact He|exact Hw|eapply sim_eval; eauto|exact Hs].
  - destruct f as [|f]; [discriminate|]. destruct (strict_bin_inv _ _ _ Hs) as [Sa Sb].
    pose proof He as He0. rewrite eval_S in He0.
    destruct (eval p f r a) as [x|] eqn:Ea; [|destruct o; discriminate].
    destruct (eval p f r b) as [y|] eqn:Eb; [|destruct o; discriminate].
    destruct (IHa w r' f x ltac:(lia) Sa Ea Hw) as (r1 & h1 & A1 & A2 & A3 & A4 & A5 & A6).
    destruct (rewrite_expr counts a w) as [a' w1]. cbn [fst snd] in *.
    destruct (IHb w1 r1 f y ltac:(lia) Sb Eb A4) as (r2 & h2 & B1 & B2 & B3 & B4 & B5 & B6).
    destruct (rewrite_expr counts b w1) as [b' w2]. cbn [fst snd] in *.
    eapply emitted_trans; [exact A1|exact A2|exact A3|].
    eapply emitted_trans; [exact B1|exact B2|exact B3|].
    eapply (hoist_ok counts bound r r2 w2 (EBin o a b)); [exact Hs|exact He|exact B4| |].
    + eapply ev_bin; [eapply ev_ext; [exact B3|exact A5]|exact B5|].
      destruct o; try discriminate; exact He0.
    + eapply strict_bin; eauto.
  - destruct f as [|f]; [discriminate|].
    pose proof He as He0. rewrite eval_S in He0.
    destruct (eval p f r a) as [x|] eqn:Ea; [|discriminate].
    destruct (IH w r' f x ltac:(lia) Hs Ea Hw) as (r1 & h1 & A1 & A2 & A3 & A4 & A5 & A6).
    destruct (rewrite_expr counts a w) as [a' w1]. cbn [fst snd] in *.
    eapply emitted_trans; [exact A1|exact A2|exact A3|].
    eapply (hoist_ok counts bound r r1 w1 (ENot a)); [exact Hs|exact He|exact A4| |exact A6].
    destruct x as [z|c|]; try discriminate; injection He0 as <-; [now apply ev_not|now apply ev_not_bool].
  - eapply hoist_ok; [exact Hs|exact He|exact Hw|eapply sim_eval; eauto|exact Hs].
  - eapply hoist_ok; [exact Hs|exact He|exact Hw|eapply sim_eval; eauto|exact Hs].
Qed.

Lemma bind_inv bound r r' s x v :
  inv T bound r r' s -> ~ In x bound -> (x < 1000)%nat ->
  r' x = None /\ inv T (x :: bound) (upd r x v) (upd r' x v) s.
Proof.
  intros (HT & (E1 & E2 & E3 & E4) & Hd & Hc) Hx Hlt.
  assert (Hn : r' x = None).
  { rewrite E3 by exact Hlt. destruct (r x) eqn:E; [|reflexivity]. exfalso. eauto. }
  split; [exact Hn|]. split; [exact HT|]. split; [|split; [exact Hd|]].
  - split; [intros y [<-|Hy]; auto|]. split; [|split].
    + intros y w. unfold upd. destruct (Nat.eqb_spec y x) as [->|]; [now left|]. right. eauto.
    + intros y Hy. unfold upd. destruct (Nat.eqb y x); auto.
    + intros m Hm. unfold upd. destruct (Nat.eqb_spec (temp m) x); [unfold temp in *; lia|auto].
  - eapply List.Forall_impl; [|exact Hc]. intros c. apply good_frame. apply le_upd. auto.
Qed.

Lemma insert_inv bound r r' s k x :
  inv T bound r r' s -> good T r' (k, x) -> inv T bound r r' (cse_insert s k x).
Proof.
  intros (HT & E & Hd & Hc) Hg. split; [exact HT|]. split; [exact E|].
  split; [now apply dinv_insert|]. apply List.Forall_forall. intros c Hin.
  cbn [cse_insert cache] in Hin. apply kput_in in Hin. destruct Hin as [->|Hin]; [exact Hg|].
  rewrite List.Forall_forall in Hc. auto.
Qed.

Lemma remember_ok bound r r' s e x v g f :
  inv T bound r r' s -> strict e = true -> eval g f r' e = Some v -> ~ In x bound -> (x < 1000)%nat ->
  (is_non_trivial e = true -> ~ In x T) ->
  inv T (x :: bound) (upd r x v) (upd r' x v) (remember_value s e x).
Proof.
  intros Hi Hs He Hx Hlt HxT.
  destruct (bind_inv bound r r' s x v Hi Hx Hlt) as [Hn Hi']. unfold remember_value.
  destruct (compute_key e) as [k|] eqn:Hk; [|exact Hi'].
  destruct (is_non_trivial e) eqn:Ht; [|exact Hi'].
  apply insert_inv; [exact Hi'|]. split; [cbn; auto|]. exists v. cbn [fst snd]. split.
  - eapply kval_ext; [|eapply kval_eval; [exact Hs|exact Hk|exact He]].
    apply le_upd. auto.
  - unfold upd. now rewrite Nat.eqb_refl.
Qed.

Lemma trivial_no_keys e : is_non_trivial e = false -> subkeys e = [].
Proof. destruct e; try discriminate; reflexivity. Qed.

Lemma let_ok f bound bound' r r' s x e v :
  (f <= F)%nat -> tame T bound (SLet x e) = Some bound' -> eval p f r e = Some v ->
  inv T bound r r' s ->
  exists r'', ex q r' (fst (cse_let s x e)) (r'', None) /\
    inv T bound' (upd r x v) r'' (snd (cse_let s x e)) /\ le_on (fun _ => True) r' r''.
Proof.
  intros Hf Ht He Hi. cbn [tame] in Ht.
  destruct (negb (mem x bound) && (x <? 1000)%nat && strict e && (negb (is_non_trivial e) || negb (mem x T)))
    eqn:Hc; [|discriminate]. injection Ht as <-.
  apply andb_true_iff in Hc. destruct Hc as [Hc HxT]. apply andb_true_iff in Hc. destruct Hc as [Hc Hs].
  apply andb_true_iff in Hc. destruct Hc as [Hx Hlt]. apply Nat.ltb_lt in Hlt.
  assert (Hx' : ~ In x bound).
  { rewrite negb_true_iff in Hx. intros Hin. apply mem_In in Hin. congruence. }
  assert (HxT' : is_non_trivial e = true -> ~ In x T).
  { intros Hn Hin. apply mem_In in Hin. rewrite Hn, Hin in HxT. discriminate. }
  clear Hx HxT. unfold cse_let.
  destruct (existsb (fun k => (1 <? count_key k (subkeys e))%nat) (subkeys e)) eqn:Hdup.
  - assert (Hnt : is_non_trivial e = true).
    { destruct (is_non_trivial e) eqn:E; [reflexivity|]. rewrite (trivial_no_keys e E) in Hdup. discriminate. }
    assert (Hw : winv bound r r' (RW [] s [])) by (split; [exact Hi|constructor]).
    destruct (rewrite_ok (subkeys e) bound r e _ r' f v Hf Hs He Hw) as (r1 & hs & H1 & H2 & H3 & H4 & H5 & H6).
    destruct (rewrite_expr (subkeys e) e (RW [] s [])) as [e' w]. cbn [fst snd hoisted] in *.
    cbn [app] in H1. subst hs. exists (upd r1 x v). destruct H4 as [Hi1 _].
    destruct (bind_inv bound r r1 _ x v Hi1 Hx' Hlt) as [Hn _].
    split; [|split].
    + eapply ex_app; [exact H2|]. eapply ex_cons; [apply st_let; exact H5|apply ex_nil].
    + destruct H5 as [g Hg]. eapply remember_ok; eauto.
    + intros y u _ Hu. apply le_upd with (P := fun _ => True); auto.
  - cbn [fst snd]. pose proof Hi as (_ & Hen & _). pose proof (envs_le _ _ _ _ Hen) as Hle.
    destruct (bind_inv bound r r' _ x v Hi Hx' Hlt) as [Hn _].
    pose proof (sim_eval f r r' e v Hf Hle He) as Hev.
    exists (upd r' x v). split; [|split].
    + eapply ex_cons; [apply st_let|apply ex_nil]. unfold cross_stmt.
      destruct (compute_key e) as [k|] eqn:Hk; [|exact Hev].
      destruct (is_non_trivial e); [|exact Hev].
      destruct (kget k (cache s)) as [y|] eqn:Hy; [|exact Hev].
      apply ev_id. apply kget_in in Hy. destruct Hi as (_ & _ & _ & Hc).
      rewrite List.Forall_forall in Hc.
      exact (good_hit T r r' (k, y) e f p v Hle (Hc _ Hy) Hs Hk He).
    + destruct Hev as [g Hg]. eapply remember_ok; eauto.
    + apply le_upd; auto.
Qed.

Lemma set_inv bound r r' s x v :
  inv T bound r r' s -> In x bound -> In x T ->
  inv T bound (upd r x v) (upd r' x v) (invalidate s x).
Proof.
  intros (HT & (E1 & E2 & E3 & E4) & Hd & Hc) Hx HxT.
  split; [exact HT|]. split; [|split; [now apply dinv_invalidate|]].
  - split; [exact E1|]. split; [|split].
    + intros y w. unfold upd. destruct (Nat.eqb_spec y x) as [->|]; [auto|]. eauto.
    + intros y Hy. unfold upd. destruct (Nat.eqb y x); auto.
    + intros m Hm. cbn [invalidate counter] in Hm. unfold upd.
      destruct (Nat.eqb_spec (temp m) x) as [<-|]; [|auto]. apply HT in HxT. unfold temp in HxT. lia.
  - apply List.Forall_forall. intros [k y] Hin. pose proof (invalidate_free _ _ _ _ Hd Hin) as Hfree.
    apply invalidate_in in Hin. rewrite List.Forall_forall in Hc. specialize (Hc _ Hin).
    eapply good_frame; [|exact Hc]. intros z u Hz Hu. cbn [fst snd] in Hz. unfold upd.
    destruct (Nat.eqb_spec z x) as [->|]; [|exact Hu]. exfalso. destruct Hz as [Hz| ->]; [auto|].
    destruct Hc as [Hc _]. auto.
Qed.

Definition frame (l : list symbol) (r r' : env) : Prop := le_on (fun s => ~ In s l) r r'.

Lemma frame_trans l l' r r1 r2 : frame l r r1 -> frame l' r1 r2 -> frame (l ++ l') r r2.
Proof.
  intros H1 H2 s v Hs Hv. apply H2; [intros Hin; apply Hs, in_or_app; auto|].
  apply H1; [intros Hin; apply Hs, in_or_app; auto|exact Hv].
Qed.

(** After a conditional: the cache from before it, less what the branches
    write, holds in the environment the branch left. *)
Lemma join_inv l n bound r r' bound1 r1 r1' s s' bound2 s1 :
  inv T bound r r' s ->
  envs bound1 n r1 r1' -> (forall x, In x bound1 -> In x bound2) ->
  (forall x, In x bound2 -> (x < 1000)%nat) ->
  (n <= counter s1)%nat -> cache s1 = cache s -> deps s1 = deps s ->
  cleared l s1 s' ->
  (exists l0, (forall x, In x l0 -> In x l) /\ (forall x, In x l0 -> In x T) /\ frame l0 r' r1') ->
  inv T bound2 r1 r1' s'.
Proof.
  intros (HT & _ & Hd & Hc) (E1 & E2 & E3 & E4) Hb Hb2 Hn Hcs Hds Hcl (l0 & Hl & HlT & Hfr).
  assert (Hd1 : dinv s1). { intros k x y. rewrite Hcs, Hds. apply Hd. }
  destruct (Hcl Hd1) as (D & C & I). split; [exact HT|]. split; [|split; [exact D|]].
  - split; [exact Hb2|]. split; [eauto|]. split; [exact E3|]. intros m Hm. apply E4. lia.
  - apply List.Forall_forall. intros [k x] Hin. destruct (I _ _ Hin) as [Hin0 Hfree].
    rewrite Hcs in Hin0. rewrite List.Forall_forall in Hc. specialize (Hc _ Hin0).
    eapply good_frame; [|exact Hc]. intros z u Hz Hu. apply Hfr; [|exact Hu]. intros Hz0.
    cbn [fst snd] in Hz. destruct Hz as [Hz| ->].
    + exact (Hfree z (Hl z Hz0) Hz).
    + destruct Hc as [Hc _]. apply Hc. cbn [snd]. auto.
Qed.

Definition after bound' r1 r' r'' s' (o : option value) l : Prop :=
  o = None -> inv T bound' r1 r'' s' /\ frame l r' r''.

Lemma tame_grow_block b :
  Forall (fun s => forall bound bound', tame T bound s = Some bound' ->
    (forall x, In x bound -> (x < 1000)%nat) -> forall x, In x bound' -> (x < 1000)%nat) b ->
  forall bound bound', tame_block T bound b = Some bound' ->
    (forall x, In x bound -> (x < 1000)%nat) -> forall x, In x bound' -> (x < 1000)%nat.
Proof.
  induction 1 as [|s b Hs Hb IH]; intros bound bound' H Hlt x Hx; cbn [tame_block] in H.
  - injection H as <-. auto.
  - destruct (tame T bound s) eqn:E; [|discriminate]. eauto.
Qed.
Lemma tame_grow s : forall bound bound', tame T bound s = Some bound' ->
    (forall x, In x bound -> (x < 1000)%nat) -> forall x, In x bound' -> (x < 1000)%nat.
Proof.
  induction s as [x e|x e|c t e Ht He|c b Hb|e|] using stmt_ind2; intros bound bound' H Hlt y Hy;
    try discriminate.
  - cbn [tame] in H. destruct (_ && _) eqn:E in H; [|discriminate]. injection H as <-.
    destruct Hy as [<-|Hy]; [|auto]. rewrite !andb_true_iff in E. apply Nat.ltb_lt. apply E.
  - cbn [tame] in H. destruct (_ && _) in H; [|discriminate]. injection H as <-. auto.
  - rewrite tame_if in H. destruct (tame_block T bound t) eqn:E1; [|discriminate].
    destruct e as [b|].
    + destruct (tame_block T bound b) eqn:E2; [|discriminate]. injection H as <-.
      apply in_app_or in Hy. destruct Hy as [Hy|Hy].
      * exact (tame_grow_block t Ht _ _ E1 Hlt _ Hy).
      * exact (tame_grow_block b He _ _ E2 Hlt _ Hy).
    + injection H as <-. apply in_app_or in Hy. destruct Hy as [Hy|Hy]; [|auto].
      exact (tame_grow_block t Ht _ _ E1 Hlt _ Hy).
  - injection H as <-. auto.
Qed.

Lemma sim_block f :
  (f <= F)%nat ->
  (forall r b r1 o bound bound' r' s,
     exec p f r b = Some (r1, o) -> tame_block T bound b = Some bound' -> inv T bound r r' s ->
     exists r'', ex q r' (fst (cse_block b s)) (r'', o) /\
       after bound' r1 r' r'' (snd (cse_block b s)) o (flat_map sets_stmt b)) /\
  (forall r x r1 o bound bound' r' s,
     step p f r x = Some (r1, o) -> tame T bound x = Some bound' -> inv T bound r r' s ->
     exists r'', ex q r' (fst (cse_stmt x s)) (r'', o) /\
       after bound' r1 r' r'' (snd (cse_stmt x s)) o (sets_stmt x)).
Proof.
  induction f as [|f IHf]; intros Hf. { split; intros; discriminate. }
  destruct (IHf ltac:(lia)) as [IB IS]. split.
  - intros r b r1 o bound bound' r' s H Ht Hi. rewrite exec_S in H.
    destruct b as [|x b]; cbn [tame_block cse_block flat_map] in *.
    + injection H as <- <-. injection Ht as <-. exists r'. split; [apply ex_nil|].
      intros _. split; [exact Hi|]. now intros y u _.
    + destruct (tame T bound x) as [bound1|] eqn:Ht1; [|discriminate].
      destruct (step p f r x) as [[r2 [w|]]|] eqn:Es; [| |discriminate].
      * injection H as <- <-. destruct (IS _ _ _ _ _ _ _ _ Es Ht1 Hi) as (r3 & Hx & _).
        destruct (cse_stmt x s) as [y s1]. destruct (cse_block b s1) as [z s2]. cbn [fst snd] in *.
        exists r3. split; [|discriminate]. clear -Hx. destruct Hx as [g Hg].
        revert g r' Hg. induction y as [|a y IH]; intros g r' Hg;
          (destruct g as [|g]; [discriminate|]); rewrite exec_S in Hg; [discriminate|].
        destruct (step q g r' a) as [[r4 [u|]]|] eqn:Ea; try discriminate; cbn [app].
        -- injection Hg as -> ->. apply ex_stop. now exists g.
        -- eapply ex_cons; [exists g; exact Ea|]. eapply IH; eauto.
      * destruct (IS _ _ _ _ _ _ _ _ Es Ht1 Hi) as (r3 & Hx & Ha). destruct (Ha eq_refl) as [Hi1 Hf1].
        destruct (cse_stmt x s) as [y s1]. cbn [fst snd] in *.
        destruct (IB _ _ _ _ _ _ _ _ H Ht Hi1) as (r4 & Hx2 & Ha2).
        destruct (cse_block b s1) as [z s2]. cbn [fst snd] in *.
        exists r4. split; [eapply ex_app; eauto|]. intros Ho. destruct (Ha2 Ho) as [Hi2 Hf2].
        split; [exact Hi2|]. eapply frame_trans; eauto.
  - intros r x r1 o bound bound' r' s H Ht Hi. rewrite step_S in H.
    pose proof Hi as (HT & Hen & Hd & Hc). pose proof (envs_le _ _ _ _ Hen) as Hle.
    destruct x as [x e|x e|c t e|c b|e|]; try discriminate.
    + destruct (eval p f r e) as [v|] eqn:Ee; [|discriminate]. injection H as <- <-.
      destruct (let_ok f bound bound' r r' s x e v ltac:(lia) Ht Ee Hi) as (r2 & H1 & H2 & H3).
      exists r2. split; [exact H1|]. intros _. split; [exact H2|]. intros y u _ Hu. now apply H3.
    + destruct (eval p f r e) as [v|] eqn:Ee; [|discriminate]. injection H as <- <-.
      cbn [tame] in Ht. destruct (mem x bound && mem x T) eqn:Hm; [|discriminate]. injection Ht as <-.
      apply andb_true_iff in Hm. destruct Hm as [M1 M2]. apply mem_In in M1, M2.
      exists (upd r' x v). cbn [cse_stmt fst snd]. split.
      * eapply ex_cons; [apply st_set|apply ex_nil]. eapply sim_eval; [|exact Hle|exact Ee]. lia.
      * intros _. split; [now apply set_inv|]. intros y u Hy Hu. unfold upd.
        destruct (Nat.eqb_spec y x) as [->|]; [|exact Hu]. exfalso. apply Hy. now left.
    + pose proof (tame_grow _ _ _ Ht (proj1 Hen)) as Hb2.
      rewrite tame_if in Ht. destruct (tame_block T bound t) as [b1|] eqn:Ht1; [|discriminate].
      rewrite cse_if.
      destruct (eval p f r c) as [[z|[]|]|] eqn:Ec; try discriminate;
        pose proof (sim_eval f r r' c _ ltac:(lia) Hle Ec) as Hcv.
      * destruct (IB _ _ _ _ _ _ _ _ H Ht1 Hi) as (r2 & Hx & Ha).
        pose proof (cse_counter t s) as Hcnt.
        destruct (cse_block t s) as [t' s1] eqn:Et. cbn [fst snd] in *.
        destruct e as [b|].
        -- destruct (tame_block T bound b) as [b2|] eqn:Ht2; [|discriminate]. injection Ht as <-.
           pose proof (cse_counter b (restore s s1)) as Hcnt2.
           destruct (cse_block b (restore s s1)) as [b' s2]. cbn [fst snd restore counter] in *.
           exists r2. split; [destruct o; [apply ex_stop|eapply ex_cons; [|apply ex_nil]];
                              (eapply st_if_true; [exact Hcv|exact Hx])|].
           intros Ho. destruct (Ha Ho) as [(_ & Hen1 & _) Hf1]. split.
           ++ eapply (join_inv _ _ _ _ _ _ _ _ s _ _ (restore s s2) Hi Hen1);
                [intros y Hy; apply in_or_app; now left|exact Hb2|exact Hcnt2|reflexivity|reflexivity|
                 eapply cleared_app; apply cleared_block|].
              exists (flat_map sets_stmt t). split; [intros y Hy; apply in_or_app; now left|].
              split; [exact (tame_sets _ _ _ _ Ht1)|exact Hf1].
           ++ intros y u Hy. apply Hf1. intros Hin. apply Hy. cbn [sets_stmt]. apply in_or_app. now left.
        -- injection Ht as <-. cbn [fst snd].
           exists r2. split; [destruct o; [apply ex_stop|eapply ex_cons; [|apply ex_nil]];
                              (eapply st_if_true; [exact Hcv|exact Hx])|].
           intros Ho. destruct (Ha Ho) as [(_ & Hen1 & _) Hf1]. split.
           ++ eapply (join_inv _ _ _ _ _ _ _ _ s _ _ (restore s s1) Hi Hen1);
                [intros y Hy; apply in_or_app; now left|exact Hb2|cbn; lia|reflexivity|reflexivity|
                 apply cleared_block|].
              exists (flat_map sets_stmt t). split; [auto|].
              split; [exact (tame_sets _ _ _ _ Ht1)|exact Hf1].
           ++ intros y u Hy. apply Hf1. intros Hin. apply Hy. cbn [sets_stmt]. apply in_or_app. now left.
      * pose proof (cse_counter t s) as Hcnt.
        destruct (cse_block t s) as [t' s1] eqn:Et. cbn [fst snd] in *.
        destruct e as [b|].
        -- destruct (tame_block T bound b) as [b2|] eqn:Ht2; [|discriminate]. injection Ht as <-.
           assert (Hi' : inv T bound r r' (restore s s1)).
           { split; [exact HT|]. split; [|split; [exact Hd|exact Hc]]. destruct Hen as (E1 & E2 & E3 & E4).
             split; [exact E1|]. split; [exact E2|]. split; [exact E3|]. intros m Hm. apply E4.
             cbn [restore counter] in Hm. lia. }
           destruct (IB _ _ _ _ _ _ _ _ H Ht2 Hi') as (r2 & Hx & Ha).
           destruct (cse_block b (restore s s1)) as [b' s2]. cbn [fst snd] in *.
           exists r2. split; [destruct o; [apply ex_stop|eapply ex_cons; [|apply ex_nil]];
                              (eapply st_if_else; [exact Hcv|exact Hx])|].
           intros Ho. destruct (Ha Ho) as [(_ & Hen1 & _) Hf1]. split.
           ++ eapply (join_inv _ _ _ _ _ _ _ _ s _ _ (restore s s2) Hi Hen1);
                [intros y Hy; apply in_or_app; now right|exact Hb2|cbn; lia|reflexivity|reflexivity|
                 eapply cleared_app; apply cleared_block|].
              exists (flat_map sets_stmt b). split; [intros y Hy; apply in_or_app; now right|].
              split; [exact (tame_sets _ _ _ _ Ht2)|exact Hf1].
           ++ intros y u Hy. apply Hf1. intros Hin. apply Hy. cbn [sets_stmt]. apply in_or_app. now right.
        -- injection Ht as <-. injection H as <- <-. cbn [fst snd].
           exists r'. split; [eapply ex_cons; [|apply ex_nil]; now apply st_if_false|].
           intros _. split; [|now intros y u _].
           eapply (join_inv _ _ _ _ _ _ _ _ s _ _ (restore s s1) Hi Hen);
             [intros y Hy; apply in_or_app; now right|exact Hb2|cbn; lia|reflexivity|reflexivity|
              apply cleared_block|].
           exists []. split; [intros y []|]. split; [intros y []|]. now intros y u _.
    + injection Ht as <-. destruct e as [e|].
      * destruct (eval p f r e) as [v|] eqn:Ee; [|discriminate]. injection H as <- <-.
        exists r'. split; [|discriminate]. cbn [cse_stmt fst]. apply ex_stop, st_return.
        eapply sim_eval; [|exact Hle|exact Ee]. lia.
      * injection H as <- <-. exists r'. split; [|discriminate]. cbn [cse_stmt fst].
        apply ex_stop, st_return_none.
Qed.
End Sim.

Lemma find_cse p g fn : forall n,
  find (fun f => Nat.eqb (f_name f) g) p = Some fn ->
  exists m, find (fun f => Nat.eqb (f_name f) g) (cse_funcs n p) =
            Some (with_body fn (fst (cse_block (f_body fn) (CSE [] [] m)))).
Proof.
  induction p as [|f p IH]; intros n; [discriminate|]. cbn [find cse_funcs].
  destruct (Nat.eqb (f_name f) g) eqn:E.
  - intros [= ->]. exists n. destruct (cse_block (f_body fn) (CSE [] [] n)) as [b s].
    cbn [find with_body f_name fst]. now rewrite E.
  - intros H. destruct (cse_block (f_body f) (CSE [] [] n)) as [b s].
    cbn [find with_body f_name]. rewrite E. now apply IH.
Qed.

Lemma bind_names ps vs s v : bind ps vs s = Some v -> In s ps.
Proof.
  revert vs. induction ps as [|q ps IH]; intros vs H; [destruct vs; discriminate|].
  destruct vs as [|w vs]; [discriminate|]. cbn [bind] in H. unfold upd in H.
  destruct (Nat.eqb_spec s q) as [->|]; [now left|]. right. eauto.
Qed.

Lemma tame_targets T b : forall bound bound',
  (forall x, In x bound -> (x < 1000)%nat) ->
  tame_block T bound b = Some bound' -> forall x, In x (flat_map sets_stmt b) -> (x < 1000)%nat.
Proof.
  assert (HS : forall s bound bound', (forall x, In x bound -> (x < 1000)%nat) ->
    tame T bound s = Some bound' -> forall x, In x (sets_stmt s) -> (x < 1000)%nat).
  { assert (HB : forall b, Forall (fun s => forall bound bound', (forall x, In x bound -> (x < 1000)%nat) ->
        tame T bound s = Some bound' -> forall x, In x (sets_stmt s) -> (x < 1000)%nat) b ->
      forall bound bound', (forall x, In x bound -> (x < 1000)%nat) ->
        tame_block T bound b = Some bound' -> forall x, In x (flat_map sets_stmt b) -> (x < 1000)%nat).
    { induction 1 as [|s b' Hs Hb IH]; intros bound bound' Hlt H x Hx; [destruct Hx|].
      cbn [tame_block flat_map] in *. destruct (tame T bound s) as [b1|] eqn:E; [|discriminate].
      apply in_app_or in Hx. destruct Hx as [Hx|Hx]; [eauto|].
      eapply IH; [|exact H|exact Hx]. exact (tame_grow T s _ _ E Hlt). }
    induction s as [x e|x e|c t e Ht He|c b' Hb|e|] using stmt_ind2; intros bound bound' Hlt H y Hy;
      try (destruct Hy; fail).
    - cbn [tame] in H. destruct (mem x bound && mem x T) eqn:E; [|discriminate].
      destruct Hy as [<-|[]]. apply andb_true_iff in E. apply Hlt. now apply mem_In.
    - rewrite tame_if in H. destruct (tame_block T bound t) eqn:E1; [|discriminate].
      destruct e as [b'|].
      + destruct (tame_block T bound b') eqn:E2; [|discriminate].
        cbn [sets_stmt] in Hy. apply in_app_or in Hy.
        destruct Hy as [Hy|Hy]; [exact (HB t Ht _ _ Hlt E1 _ Hy)|exact (HB b' He _ _ Hlt E2 _ Hy)].
      + cbn [sets_stmt] in Hy. rewrite app_nil_r in Hy. exact (HB t Ht _ _ Hlt E1 _ Hy).
    - discriminate. }
  induction b as [|s b IH]; intros bound bound' Hlt H x Hx; [destruct Hx|].
  cbn [tame_block flat_map] in *. destruct (tame T bound s) as [b1|] eqn:E; [|discriminate].
  apply in_app_or in Hx. destruct Hx as [Hx|Hx]; [eauto|].
  eapply IH; [|exact H|exact Hx]. exact (tame_grow T s _ _ E Hlt).
Qed.

Lemma cse_sim p : Forall (fun f => tame_func f = true) p ->
  forall F g vs v, call p F g vs = Some v -> cl (cse p) g vs v.
Proof.
  intros Hp F. induction F as [F IH] using lt_wf_ind. intros g vs v H.
  destruct F as [|F]; [discriminate|]. rewrite call_S in H.
  destruct (find (fun f => Nat.eqb (f_name f) g) p) as [fn|] eqn:Hfind; [|discriminate].
  destruct (Nat.eqb_spec (length (f_params fn)) (length vs)) as [Hlen|]; [|discriminate].
  destruct (exec p F (bind (f_params fn) vs) (f_body fn)) as [[r1 [w|]]|] eqn:Ex; try discriminate.
  injection H as ->.
  destruct (find_cse p g fn 0 Hfind) as [m Hfind'].
  assert (Hfn : tame_func fn = true).
  { rewrite List.Forall_forall in Hp. apply Hp. apply find_some in Hfind. apply Hfind. }
  unfold tame_func in Hfn. apply andb_true_iff in Hfn. destruct Hfn as [Hps Hbody].
  assert (Hlt : forall x, In x (f_params fn) -> (x < 1000)%nat).
  { intros x Hx. rewrite forallb_forall in Hps. apply Nat.ltb_lt. now apply Hps. }
  set (T := flat_map sets_stmt (f_body fn)) in *.
  destruct (tame_block T (f_params fn) (f_body fn)) as [bound'|] eqn:Ht; [|discriminate].
  assert (Hcalls : forall f g0 vs0 v0, (f < F)%nat -> call p f g0 vs0 = Some v0 -> cl (cse p) g0 vs0 v0).
  { intros f g0 vs0 v0 Hf. apply IH. lia. }
  assert (Hi : inv T (f_params fn) (bind (f_params fn) vs) (bind (f_params fn) vs) (CSE [] [] m)).
  { split; [exact (tame_targets T _ _ _ Hlt Ht)|]. split; [|split; [intros k x y []|constructor]].
    split; [exact Hlt|]. split; [apply bind_names|]. split; [reflexivity|].
    intros j _. destruct (bind (f_params fn) vs (temp j)) eqn:E; [|reflexivity].
    apply bind_names in E. apply Hlt in E. unfold temp in E. lia. }
  destruct (sim_block p (cse p) T F Hcalls F ltac:(lia)) as [HB _].
  destruct (HB _ _ _ _ _ _ _ _ Ex Ht Hi) as (r2 & Hx & _).
  eapply cl_intro; [exact Hfind'|exact Hlen|]. exact Hx.
Qed.
