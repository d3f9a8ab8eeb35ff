(** Simulation lemmas for the inliner and for common subexpression
    elimination. *)

From Coq Require Import ZArith List Bool Lia.
From Verif Require Import SymModel SymProofs CseModel.
Import ListNotations.
Open Scope Z_scope.

(** ** Further rules *)

Lemma ev_and_false p r a b x :
  ev p r a x -> truthy x = false -> ev p r (EBin And a b) (VBool false).
Proof. intros [f Hf] Ht. exists (S f). rewrite eval_S, Hf, Ht. reflexivity. Qed.
Lemma ev_and_true p r a b x y :
  ev p r a x -> truthy x = true -> ev p r b y -> ev p r (EBin And a b) (VBool (truthy y)).
Proof.
  intros [f Hf] Ht [f' Hf']. exists (S (f + f')). rewrite eval_S.
  rewrite (up_eval p f (f + f') _ _ _ ltac:(lia) Hf), (up_eval p f' (f + f') _ _ _ ltac:(lia) Hf'), Ht.
  reflexivity.
Qed.
Lemma ev_or_true p r a b x :
  ev p r a x -> truthy x = true -> ev p r (EBin Or a b) (VBool true).
Proof. intros [f Hf] Ht. exists (S f). rewrite eval_S, Hf, Ht. reflexivity. Qed.
Lemma ev_or_false p r a b x y :
  ev p r a x -> truthy x = false -> ev p r b y -> ev p r (EBin Or a b) (VBool (truthy y)).
Proof.
  intros [f Hf] Ht [f' Hf']. exists (S (f + f')). rewrite eval_S.
  rewrite (up_eval p f (f + f') _ _ _ ltac:(lia) Hf), (up_eval p f' (f + f') _ _ _ ltac:(lia) Hf'), Ht.
  reflexivity.
Qed.
Lemma ev_not_bool p r a b : ev p r a (VBool b) -> ev p r (ENot a) (VBool (negb b)).
Proof. intros [f Hf]. exists (S f). rewrite eval_S, Hf. reflexivity. Qed.
Lemma st_if_else p r c t e o :
  ev p r c (VBool false) -> ex p r e o -> st p r (SIf c t (Some e)) o.
Proof.
  intros [f Hf] [f' Hf']. exists (S (f + f')). rewrite step_S.
  rewrite (up_eval p f (f + f') _ _ _ ltac:(lia) Hf).
  exact (up_exec p f' (f + f') _ _ _ ltac:(lia) Hf').
Qed.
Lemma st_while_stop p r c b r' v :
  ev p r c (VBool true) -> ex p r b (r', Some v) -> st p r (SWhile c b) (r', Some v).
Proof.
  intros [f Hf] [f' Hf']. exists (S (f + f')). rewrite step_S.
  rewrite (up_eval p f (f + f') _ _ _ ltac:(lia) Hf).
  now rewrite (up_exec p f' (f + f') _ _ _ ltac:(lia) Hf').
Qed.
Lemma st_return_none p r : st p r (SReturn None) (r, Some VNothing).
Proof. now exists 1%nat. Qed.

(** An operator node, whichever operator, in terms of its parts: if the parts
    that were evaluated have the same values elsewhere, so has the node. *)
Lemma bin_transfer p f r o a b v (Q : expr -> value -> Prop) q r' a' b' :
  eval p (S f) r (EBin o a b) = Some v ->
  (forall x, eval p f r a = Some x -> ev q r' a' x) ->
  (forall y, eval p f r b = Some y -> ev q r' b' y) ->
  ev q r' (EBin o a' b') v.
Proof.
  intros H Ha Hb. rewrite eval_S in H.
  destruct (eval p f r a) as [x|] eqn:Ea; [|destruct o; discriminate].
  specialize (Ha _ eq_refl).
  destruct o;
    try (destruct (eval p f r b) as [y|] eqn:Eb; [|discriminate];
         eapply ev_bin; [exact Ha|exact (Hb _ eq_refl)|exact H]).
  - destruct (truthy x) eqn:Ht.
    + destruct (eval p f r b) as [y|] eqn:Eb; [|discriminate]. injection H as <-.
      eapply ev_and_true; eauto.
    + injection H as <-. eapply ev_and_false; eauto.
  - destruct (truthy x) eqn:Ht.
    + injection H as <-. eapply ev_or_true; eauto.
    + destruct (eval p f r b) as [y|] eqn:Eb; [|discriminate]. injection H as <-.
      eapply ev_or_false; eauto.
Qed.

Lemma not_transfer p f r a v q r' a' :
  eval p (S f) r (ENot a) = Some v ->
  (forall x, eval p f r a = Some x -> ev q r' a' x) ->
  ev q r' (ENot a') v.
Proof.
  intros H Ha. rewrite eval_S in H.
  destruct (eval p f r a) as [x|] eqn:Ea; [|discriminate]. specialize (Ha _ eq_refl).
  destruct x as [z|b|]; try discriminate; injection H as <-.
  - now apply ev_not.
  - now apply ev_not_bool.
Qed.

(** ** The inliner *)

Lemma find_catalogue p g params e :
  NoDup (map f_name p) ->
  get_body g (catalogue p) = Some (params, e) ->
  exists fn, find (fun f => Nat.eqb (f_name f) g) p = Some fn /\
             f_params fn = params /\ f_body fn = [SReturn (Some e)] /\ body_inlinable e = true.
Proof.
  intros Hnd Hg. unfold get_body in Hg.
  destruct (find (fun c => Nat.eqb (fst c) g) (catalogue p)) as [[g' [ps e']]|] eqn:Hf; [|discriminate].
  cbn [option_map snd] in Hg. injection Hg as -> ->.
  apply find_some in Hf. destruct Hf as [Hin Heq]. cbn [fst] in Heq.
  apply Nat.eqb_eq in Heq. subst g'. unfold catalogue in Hin.
  apply in_rev in Hin. apply in_flat_map in Hin. destruct Hin as (fn & Hfn & Hc).
  unfold candidate in Hc. destruct (f_native fn || f_generic fn); [destruct Hc|].
  destruct (f_body fn) as [|[| | | |[e'|]|] [|]] eqn:Hb; try destruct Hc.
  destruct (body_inlinable e') eqn:Hi; [|destruct Hc].
  destruct Hc as [Hc|[]]. injection Hc as Hn Hp ->. exists fn. subst.
  split; [|repeat split; auto].
  clear Hb Hi. induction p as [|f0 p IH]; [destruct Hfn|]. cbn [find].
  destruct Hfn as [->|Hfn]; [now rewrite Nat.eqb_refl|].
  cbn [map] in Hnd. inversion Hnd as [|? ? Hni Hnd' ]; subst.
  destruct (Nat.eqb_spec (f_name f0) (f_name fn)) as [Heq|_]; [|now apply IH].
  exfalso. apply Hni. rewrite Heq. now apply in_map.
Qed.

Lemma find_inlined bs p g fn :
  find (fun f => Nat.eqb (f_name f) g) p = Some fn ->
  find (fun f => Nat.eqb (f_name f) g) (map (inline_func bs) p) = Some (inline_func bs fn).
Proof.
  induction p as [|f p IH]; [discriminate|]. cbn [find map].
  destruct (Nat.eqb_spec (f_name f) g) as [E|E].
  - intros [= ->]. cbn [inline_func with_body f_name]. rewrite E. now rewrite Nat.eqb_refl.
  - cbn [inline_func with_body f_name]. rewrite (proj2 (Nat.eqb_neq _ _) E). exact IH.
Qed.

Lemma look_bind p r ps args vs s w :
  Forall2 (ev p r) args vs -> bind ps vs s = Some w ->
  exists a, look s (combine ps args) = Some a /\ ev p r a w.
Proof.
  intros Hf. revert ps. induction Hf as [|a v args vs Ha Hf IH]; intros ps Hb.
  - destruct ps; discriminate.
  - destruct ps as [|q ps]; [discriminate|]. cbn [bind combine] in *. unfold upd in Hb.
    unfold look. cbn [find fst].
    rewrite Nat.eqb_sym. destruct (Nat.eqb_spec s q).
    + injection Hb as <-. exists a. split; [reflexivity|exact Ha].
    + apply IH. exact Hb.
Qed.

Lemma subst_ok p q r b ps vs e f v :
  body_inlinable e = true ->
  (forall s w, bind ps vs s = Some w -> exists a, look s b = Some a /\ ev q r a w) ->
  eval p f (bind ps vs) e = Some v ->
  ev q r (subst b e) v.
Proof.
  intros Hi Hl. revert f v. induction e as [z|s|o l IHl r0 IHr|a IH|g args|]; intros f v H;
    try discriminate; (destruct f as [|f]; [discriminate|]).
  - rewrite eval_S in H. injection H as <-. apply ev_num.
  - rewrite eval_S in H. cbn [subst]. destruct (Hl _ _ H) as (a & -> & Ha). exact Ha.
  - cbn [body_inlinable] in Hi. apply andb_true_iff in Hi. destruct Hi as [Hl' Hr']. cbn [subst].
    eapply (bin_transfer p f _ o l r0 v (fun _ _ => True)); eauto.
  - cbn [subst]. eapply not_transfer; eauto.
Qed.

Section Inline.
Variable p : program.
Hypothesis names : NoDup (map f_name p).
Let bs := catalogue p.
Let q := map (inline_func bs) p.

Lemma evs_forall2 r es vs : evs q r es vs -> Forall2 (ev q r) es vs.
Proof.
  intros [f Hf]. revert f vs Hf. induction es as [|e es IH]; intros f vs Hf;
    (destruct f as [|f]; [discriminate|]); rewrite evals_S in Hf.
  - injection Hf as <-. constructor.
  - destruct (eval q f r e) eqn:E1; [|discriminate].
    destruct (evals q f r es) eqn:E2; [|discriminate]. injection Hf as <-.
    constructor; [now exists f|]. eapply IH; eauto.
Qed.

Lemma inline_sim f :
  (forall r e v, eval p f r e = Some v -> ev q r (inline_expr bs e) v) /\
  (forall r es vs, evals p f r es = Some vs -> evs q r (map (inline_expr bs) es) vs) /\
  (forall g vs v, call p f g vs = Some v -> cl q g vs v) /\
  (forall r ss o, exec p f r ss = Some o -> ex q r (map (inline_stmt bs) ss) o) /\
  (forall r s o, step p f r s = Some o -> st q r (inline_stmt bs s) o).
Proof.
  induction f as [f IHf] using lt_wf_ind.
  destruct f as [|f]. { repeat split; intros; discriminate. }
  destruct (IHf f ltac:(lia)) as (IE & IEs & IC & IX & IS).
  repeat split.
  - intros r e v H. destruct e as [z|s|o a b|a|g args|].
    + rewrite eval_S in H. injection H as <-. apply ev_num.
    + rewrite eval_S in H. now apply ev_id.
    + cbn [inline_expr]. eapply (bin_transfer p f _ o a b v (fun _ _ => True)); eauto.
    + cbn [inline_expr]. eapply not_transfer; eauto.
    + rewrite eval_S in H. destruct (evals p f r args) as [vs|] eqn:Ea; [|discriminate].
      apply IEs in Ea. cbn [inline_expr].
      destruct (get_body g bs) as [[params body]|] eqn:Hg.
      2:{ eapply ev_call; [exact Ea|]. now apply IC. }
      destruct (Nat.eqb (length params) (length (map (inline_expr bs) args)) &&
                forallb arg_atomic (map (inline_expr bs) args)) eqn:Hc.
      2:{ eapply ev_call; [exact Ea|]. now apply IC. }
      destruct (find_catalogue p g params body names Hg) as (fn & Hfind & <- & Hbody & Hi).
      destruct f as [|f]; [discriminate|]. rewrite call_S, Hfind in H.
      destruct (Nat.eqb _ _); [|discriminate]. rewrite Hbody in H.
      destruct f as [|f]; [discriminate|]. rewrite exec_S in H.
      destruct f as [|f]; [discriminate|]. rewrite step_S in H.
      destruct (eval p f _ body) as [w|] eqn:Ew; [|discriminate]. injection H as ->.
      eapply subst_ok; [exact Hi| |exact Ew].
      intros s w Hs. eapply look_bind; [|exact Hs]. now apply evs_forall2.
    + rewrite eval_S in H. discriminate.
  - intros r es vs H. rewrite evals_S in H. destruct es as [|e es].
    + injection H as <-. apply evs_nil.
    + destruct (eval p f r e) eqn:E1; [|discriminate].
      destruct (evals p f r es) eqn:E2; [|discriminate]. injection H as <-.
      cbn [map]. apply evs_cons; auto.
  - intros g vs v H. rewrite call_S in H.
    destruct (find (fun f => Nat.eqb (f_name f) g) p) as [fn|] eqn:Hfind; [|discriminate].
    destruct (Nat.eqb_spec (length (f_params fn)) (length vs)) as [Hlen|]; [|discriminate].
    destruct (exec p f _ _) as [[r' [w|]]|] eqn:Ex; try discriminate. injection H as ->.
    apply (find_inlined bs) in Hfind. fold q in Hfind.
    eapply cl_intro; [exact Hfind|exact Hlen|]. apply IX. exact Ex.
  - intros r ss o H. rewrite exec_S in H. destruct ss as [|s ss]; cbn [map].
    + injection H as <-. apply ex_nil.
    + destruct (step p f r s) as [[r' [w|]]|] eqn:Es; [| |discriminate].
      * injection H as <-. apply ex_stop. now apply IS.
      * eapply ex_cons; [apply IS; exact Es|]. now apply IX.
  - intros r s o H. rewrite step_S in H. destruct s as [x e|x e|c t e|c b|[e|]|]; cbn [inline_stmt].
    + destruct (eval p f r e) eqn:E; [|discriminate]. injection H as <-. apply st_let. auto.
    + destruct (eval p f r e) eqn:E; [|discriminate]. injection H as <-. apply st_set. auto.
    + destruct (eval p f r c) as [[|[]|]|] eqn:E; try discriminate.
      * eapply st_if_true; [apply IE; exact E|]. auto.
      * destruct e as [b|]; cbn [option_map].
        -- eapply st_if_else; [apply IE; exact E|]. auto.
        -- injection H as <-. apply st_if_false. auto.
    + destruct (eval p f r c) as [[|[]|]|] eqn:E; try discriminate.
      * destruct (exec p f r b) as [[r' [w|]]|] eqn:Ex; [| |discriminate].
        -- injection H as <-. eapply st_while_stop; [apply IE; exact E|auto].
        -- eapply st_while_true; [apply IE; exact E|apply IX; exact Ex|].
           apply IS in H. exact H.
      * injection H as <-. apply st_while_false. auto.
    + destruct (eval p f r e) eqn:E; [|discriminate]. injection H as <-. apply st_return. auto.
    + injection H as <-. apply st_return_none.
    + discriminate.
Qed.
End Inline.
