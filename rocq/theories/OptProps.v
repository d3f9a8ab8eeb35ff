(** C120: certified minimisation by binary search. *)
From Coq Require Import List ZArith Bool Lia.
From Verif Require Import RelatedModel.
Local Open Scope Z_scope.

Section opt.
Context {W : Type}.
Variable decide : Z -> outcome W.
Definition sat (b : Z) : Prop := exists w, decide b = Sat w.
Lemma quot_half l h : l < h -> l <= l + Z.quot (h - l) 2 < h.
Proof. intros H. rewrite Z.quot_div_nonneg by lia. Z.to_euclidean_division_equations. lia. Qed.
Lemma search_spec lo : forall fuel l h, lo <= l <= h -> (Z.to_nat (h - l) <= fuel)%nat -> sat h -> (l = lo \/ decide (l - 1) = Refuted) ->
  match search fuel decide l h with
  | Some o => l <= o <= h /\ sat o /\ (o = lo \/ decide (o - 1) = Refuted)
  | None => exists b, l <= b < h /\ decide b = Unsupported
  end.
Proof.
  induction fuel as [|fuel IH]; intros l h Hb Hf Hs Hr; cbn [search].
  - assert (l = h) as -> by lia. repeat split; auto; lia.
  - destruct (Z.ltb_spec l h) as [L|L].
    + pose proof (quot_half l h L) as M. cbv zeta. set (mid := l + _) in *. destruct (decide mid) as [w| |] eqn:E.
      * specialize (IH l mid ltac:(lia) ltac:(lia) (ex_intro _ w E) Hr). destruct (search fuel decide l mid) as [o|].
        -- destruct IH as (A & B & C). repeat split; auto; lia.
        -- destruct IH as (b & A & B). exists b. split; [lia|exact B].
      * specialize (IH (mid + 1) h ltac:(lia) ltac:(lia) Hs). replace (mid + 1 - 1) with mid in IH by lia. specialize (IH (or_intror E)).
        destruct (search fuel decide (mid + 1) h) as [o|].
        -- destruct IH as (A & B & C). repeat split; auto; lia.
        -- destruct IH as (b & A & B). exists b. split; [lia|exact B].
      * exists mid. split; [lia|exact E].
    + assert (l = h) as -> by lia. repeat split; auto; lia.
Qed.
(** Whatever the decisions are: a result lies in the range, carries the witness found there, and is always certified: it is
    the lower end of the range or its predecessor is refuted.  Without a result the range is empty, its top has no witness, or
    some query in it is unsupported. *)
Theorem C120_result lo hi :
  match minimize_certified decide lo hi with
  | Some r => lo <= optimum r <= hi /\ decide (optimum r) = Sat (witness r) /\ minimal_certified r = true /\
              (optimum r = lo \/ decide (optimum r - 1) = Refuted)
  | None => hi < lo \/ ~ sat hi \/ exists b, lo <= b < hi /\ decide b = Unsupported
  end.
Proof.
  unfold minimize_certified. destruct (Z.ltb_spec hi lo) as [L|L]; [now left|]. destruct (decide hi) as [w| |] eqn:E.
  2,3: right; left; intros [w' E']; rewrite E in E'; discriminate.
  pose proof (search_spec lo (Z.to_nat (hi - lo)) lo hi ltac:(lia) ltac:(lia) (ex_intro _ w E) (or_introl eq_refl)) as S.
  destruct (search _ decide lo hi) as [o|]; [|now right; right]. destruct S as (B & [w' Ew] & M). rewrite Ew. cbn [optimum witness minimal_certified].
  split; [exact B|]. split; [exact Ew|]. split; [|exact M]. destruct M as [->|M]; [rewrite Z.leb_refl; reflexivity|]. rewrite M. apply orb_true_r.
Qed.
(** If feasibility is monotone, the result is the least feasible bound of the range; and if moreover no query of the range
    is unsupported, there is a result exactly when some bound of the range is feasible. *)
Theorem C120_minimum lo hi : (forall b, lo <= b < hi -> sat b -> sat (b + 1)) ->
  (forall r, minimize_certified decide lo hi = Some r -> sat (optimum r) /\ forall b, lo <= b <= hi -> sat b -> optimum r <= b) /\
  ((forall b, lo <= b <= hi -> decide b <> Unsupported) -> (exists r, minimize_certified decide lo hi = Some r) <-> exists b, lo <= b <= hi /\ sat b).
Proof.
  intros Hm. assert (Up : forall b c, lo <= b -> b <= c <= hi -> sat b -> sat c).
  { intros b c Hb Hc Hs. replace c with (b + Z.of_nat (Z.to_nat (c - b))) by lia. assert (Hk : Z.of_nat (Z.to_nat (c - b)) <= hi - b) by lia. revert Hk.
    generalize (Z.to_nat (c - b)). induction n as [|n IH]; intros Hk; [now rewrite Z.add_0_r|]. replace (b + Z.of_nat (S n)) with (b + Z.of_nat n + 1) by lia.
    apply Hm; [lia|]. apply IH. lia. }
  pose proof (C120_result lo hi) as R. split.
  - intros r E. rewrite E in R. destruct R as (B & Ew & _ & M). split; [now exists (witness r)|]. intros b Hb Hs.
    destruct M as [->|M]; [lia|]. destruct (Z.le_gt_cases (optimum r) b) as [|L]; [assumption|exfalso].
    destruct (Up b (optimum r - 1) ltac:(lia) ltac:(lia) Hs) as [w Ew']. rewrite M in Ew'. discriminate.
  - intros Hu. destruct (minimize_certified decide lo hi) as [r|].
    + split; [|intros _; now exists r]. intros _. destruct R as (B & Ew & _). exists (optimum r). split; [exact B|now exists (witness r)].
    + split; [intros [r E]; discriminate|]. intros (b & Hb & Hs). exfalso. destruct R as [R|[R|(c & Hc & R)]]; [lia| |now apply (Hu c); [lia|]].
      apply R. now apply (Up b hi); [lia|lia|].
Qed.
End opt.
(** Without monotonicity the certified flag is set for a bound that is not the least feasible one. *)
Theorem C120_not_monotone_refuted : exists (decide : Z -> outcome unit) lo hi r b,
  minimize_certified decide lo hi = Some r /\ minimal_certified r = true /\ lo <= b < optimum r /\ sat decide b.
Proof.
  exists (fun b => if (b =? 0) || (b =? 5) || (b =? 6) then Sat tt else Refuted), 0, 6, {| optimum := 5; witness := tt; minimal_certified := true |}, 0.
  split; [vm_compute; reflexivity|]. split; [reflexivity|]. split; [cbn; lia|]. now exists tt.
Qed.
Example C120_example :
  minimize_certified (fun b => if 4 <=? b then Sat b else Refuted) (-10) 20 = Some {| optimum := 4; witness := 4; minimal_certified := true |} /\
  minimize_certified (fun b => if 4 <=? b then Sat b else Refuted) (-10) 3 = None /\
  minimize_certified (fun b => if 4 <=? b then Sat b else Unsupported) 0 9 = None.
Proof. vm_compute. repeat split. Qed.
