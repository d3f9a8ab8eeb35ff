(** Replicated execution with resolved operations.

    Some operations mean different things in different states ("remove the element
    at position 3"). [eff o s] says what operation [o] did in state [s] ("remove the
    element with this identity"). The run determines one history of resolved
    operations, shared by all replicas; it has the same origins and causal pasts as
    [hist_of evs]. *)
From stdpp Require Import gmap.
From Verif Require Import Replication.

Section Effects.
  Context {O E S : Type} (init : N -> S) (apply : O -> S -> S) (merge : S -> S -> S) (eff : O -> S -> E).

  Definition estep (gc : history E * config (S := S)) (ge : ghost (O := O) * event O) : history E :=
    match ge.2 with
    | EOp r o => gc.1 ++ [{| op_origin := r; op_op := eff o (c_st gc.2 r); op_past := g_known ge.1 r |}]
    | _ => gc.1
    end.

  Fixpoint eff_from (evs : list (event O)) (g : ghost (O := O)) (c : config) (h : history E) : history E :=
    match evs with
    | [] => h
    | e :: evs' => eff_from evs' (gstep g e) (cstep apply merge c e) (estep (h, c) (g, e))
    end.
  (** The history of resolved operations of a run. *)
  Definition effects_of (evs : list (event O)) : history E := eff_from evs ghost0 (config0 init) [].

  Lemma effects_of_snoc evs e :
    effects_of (evs ++ [e]) = estep (effects_of evs, cexec init apply merge evs) (gexec evs, e).
  Proof.
    unfold effects_of, cexec, gexec. generalize (ghost0 (O := O)), (config0 init), (@nil (opinfo E)).
    induction evs as [|x evs IH]; intros g c h; simpl; [reflexivity|]. apply IH.
  Qed.

  Definition same_shape (x : opinfo E) (y : opinfo O) : Prop :=
    op_origin x = op_origin y /\ op_past x = op_past y.

  Lemma same_shape_closed (eh : history E) (h : history O) K :
    Forall2 same_shape eh h -> closed h K -> closed eh K.
  Proof.
    intros F [A B]. split.
    - intros i Hi. rewrite (Forall2_length _ _ _ F). auto.
    - intros i x Hi Hx. destruct (Forall2_lookup_l _ _ _ i x F Hx) as (y & Hy & _ & ->). eauto.
  Qed.

  Lemma same_shape_wf (eh : history E) (h : history O) :
    Forall2 same_shape eh h -> wf h -> wf eh.
  Proof.
    intros F W i x Hx. destruct (Forall2_lookup_l _ _ _ i x F Hx) as (y & Hy & E1 & E2).
    destruct (W i y Hy) as (A & B & C). rewrite E2. split; [now apply (same_shape_closed eh h)|].
    split; [exact B|]. intros j z Hj Hz E3.
    destruct (Forall2_lookup_l _ _ _ j z F Hz) as (w & Hw & E4 & _).
    apply (C j w Hj Hw). congruence.
  Qed.

  Lemma same_shape_own (eh : history E) (h : history O) r K :
    Forall2 same_shape eh h -> own_known h r K -> own_known eh r K.
  Proof.
    intros F H j z Hz E1. destruct (Forall2_lookup_l _ _ _ j z F Hz) as (w & Hw & E4 & _).
    apply (H j w Hw). congruence.
  Qed.

  Lemma replication_invariant_eff (ident : S -> N) (I : history E -> gset nat -> S -> Prop) :
    (forall r, ident (init r) = r) ->
    (forall o s, ident (apply o s) = ident s) ->
    (forall s t, ident (merge s t) = ident s) ->
    (forall r, I [] ∅ (init r)) ->
    (forall h o K K' s s', wf h -> closed h K -> closed h K' -> own_known h (ident s') K' -> I h K s -> I h K' s' ->
       I (h ++ [{| op_origin := ident s'; op_op := eff o s'; op_past := K' |}]) K s) ->
    (forall h o K s, wf h -> closed h K -> own_known h (ident s) K -> I h K s ->
       I (h ++ [{| op_origin := ident s; op_op := eff o s; op_past := K |}]) (K ∪ {[length h]}) (apply o s)) ->
    (forall h K L s t, wf h -> closed h K -> closed h L -> I h K s -> I h L t ->
       I h (K ∪ L) (merge s t)) ->
    forall evs,
      Forall2 same_shape (effects_of evs) (hist_of evs) /\
      wf (effects_of evs) /\
      (forall r, closed (effects_of evs) (known_by evs r)) /\
      (forall r, I (effects_of evs) (known_by evs r) (state_at init apply merge evs r)) /\
      (forall r, ident (state_at init apply merge evs r) = r).
  Proof.
    intros Hid0 Hid1 Hid2 H0 Hm Ho Hg.
    set (Inv := fun (g : ghost) (c : config) (eh : history E) =>
      ginv g /\ Forall2 same_shape eh (g_hist g) /\
      (forall r, I eh (g_known g r) (c_st c r) /\ ident (c_st c r) = r) /\
      length (g_sent g) = length (c_sent c) /\
      (forall k K s, g_sent g !! k = Some K -> c_sent c !! k = Some s -> I eh K s)).
    assert (G : forall evs g c eh, Inv g c eh ->
      Inv (fold_left gstep evs g) (fold_left (cstep apply merge) evs c) (eff_from evs g c eh)).
    { induction evs as [|e evs IH]; intros g c eh Hgc; simpl; [exact Hgc|].
      apply IH. destruct Hgc as (GI & F & A & L & B).
      pose proof (ginv_step g e GI) as GI'. destruct GI as [W C Own Sn].
      pose proof (same_shape_wf eh _ F W) as We.
      assert (Ce : forall r, closed eh (g_known g r)) by (intros; eapply same_shape_closed; eauto).
      assert (Se : forall k K, g_sent g !! k = Some K -> closed eh K) by (intros; eapply same_shape_closed; eauto).
      assert (Oe : forall r, own_known eh r (g_known g r)) by (intros; eapply same_shape_own; eauto).
      split; [exact GI'|]. clear GI'.
      destruct e as [r o|r|r k]; unfold estep; simpl.
      - assert (Er : ident (c_st c r) = r) by apply A.
        split; [apply Forall2_app; [exact F|constructor; [split; reflexivity|constructor]]|].
        split; [|split; [exact L|]].
        + intros q. unfold upd. destruct (decide (q = r)) as [->|Hq].
          * destruct (A r) as [A1 A2]. split; [|rewrite Hid1; exact A2].
            rewrite <- (Forall2_length _ _ _ F). rewrite <- A2 at 1. apply Ho; auto. rewrite A2. auto.
          * destruct (A q) as [A1 A2]. split; [|exact A2]. rewrite <- Er at 1.
            apply Hm; auto; [rewrite Er; auto|apply A].
        + intros k K s Hk Hs. rewrite <- Er at 1. apply Hm; eauto; [rewrite Er; auto|apply A].
      - split; [exact F|]. split; [exact A|]. split; [rewrite !app_length, L; reflexivity|].
        intros k K s Hk Hs.
        apply lookup_app_Some in Hk as [Hk|[Hl Hk]].
        + apply lookup_app_Some in Hs as [Hs|[Hl Hs]]; [eauto|].
          apply lookup_lt_Some in Hk. lia.
        + apply lookup_app_Some in Hs as [Hs|[Hl' Hs]].
          { apply lookup_lt_Some in Hs. lia. }
          apply list_lookup_singleton_Some in Hk as [_ <-].
          apply list_lookup_singleton_Some in Hs as [_ <-]. apply A.
      - destruct (g_sent g !! k) as [K|] eqn:E1; destruct (c_sent c !! k) as [s|] eqn:E2.
        + simpl. split; [exact F|]. split; [|split; [exact L|exact B]].
          intros q. unfold upd. destruct (decide (q = r)) as [->|Hq]; [|apply A].
          destruct (A r) as [A1 A2]. split; [|rewrite Hid2; exact A2].
          apply Hg; eauto.
        + apply lookup_lt_Some in E1. apply lookup_ge_None in E2. lia.
        + apply lookup_lt_Some in E2. apply lookup_ge_None in E1. lia.
        + auto. }
    assert (I0 : Inv ghost0 (config0 init) []).
    { split; [apply (ginv_exec [])|]. split; [constructor|]. split; [|split; [reflexivity|]].
      - intros r. split; [apply H0|apply Hid0].
      - intros k K s Hk. cbn [g_sent ghost0] in Hk. rewrite lookup_nil in Hk. discriminate. }
    intros evs. destruct (G evs _ _ _ I0) as (GI & F & A & _ & _).
    destruct GI as [W C _ _]. unfold effects_of, hist_of, known_by, state_at, gexec, cexec.
    split; [exact F|]. split; [eapply same_shape_wf; eauto|].
    split; [intros; eapply same_shape_closed; eauto|]. split; apply A.
  Qed.
End Effects.
