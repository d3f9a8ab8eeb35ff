(** C88: copy-on-write makes lists behave as values. *)
From Coq Require Import ZArith List Bool Lia.
From stdpp Require Import gmap.
From Verif Require Import CowModel CowProofs.

Lemma inv_empty : inv ∅ 0 ∅ ∅.
Proof. split; [split|]; intros *; rewrite ?lookup_empty; [intros [? ?]; done|done|done]. Qed.
Lemma run_ok p : List.Forall direct p -> forall h nx env tenv, inv h nx env tenv ->
  match snd (trun tenv p) with
  | Some tenv' => exists h' nx' env', eventually (fun n => run true n h nx env p) (fst (trun tenv p), Ended (h', nx', env')) /\ inv h' nx' env' tenv'
  | None => eventually (fun n => run true n h nx env p) (fst (trun tenv p), Failed)
  end.
Proof.
  induction 1 as [|s p Hs _ IH]; intros h nx env tenv I; cbn [trun run].
  - cbn. exists h, nx, env. split; [exists 0; done|done].
  - pose proof (exec_ok h nx env tenv s I Hs) as X. destruct (texec tenv s) as [[tenv1 o]|].
    + destruct X as (h1 & nx1 & env1 & (n1 & E1) & I1). specialize (IH _ _ _ _ (collect_ok (size h1) _ _ _ _ I1)). destruct (trun tenv1 p) as [o2 [tenv'|]]; cbn [fst snd] in *.
      * destruct IH as (h2 & nx2 & env2 & (n2 & E2) & I2). exists h2, nx2, env2. split; [|done]. exists (max n1 n2). intros n Hn. rewrite E1 by lia. rewrite E2 by lia. done.
      * destruct IH as (n2 & E2). exists (max n1 n2). intros n Hn. rewrite E1 by lia. rewrite E2 by lia. done.
    + destruct X as (n1 & E1). exists n1. intros n Hn. cbn. rewrite E1 by lia. done.
Qed.

(** A program that changes lists through variables prints what the same program prints when every variable holds its own list, fails when that
    one fails, and leaves the same contents in every variable. *)
Theorem C88_values : forall p, List.Forall direct p -> exists n0, forall n, n0 <= n ->
  fst (run true n ∅ 0 ∅ p) = fst (trun ∅ p) /\
  match snd (trun ∅ p) with
  | None => snd (run true n ∅ 0 ∅ p) = Failed
  | Some tenv => exists h nx env, snd (run true n ∅ 0 ∅ p) = Ended (h, nx, env) /\ (forall x, env !! x = None <-> tenv !! x = None) /\
      forall x v t, env !! x = Some v -> tenv !! x = Some t -> exists m0, forall m, m0 <= m -> read m h v = Some t
  end.
Proof.
  intros p Hp. pose proof (run_ok p Hp ∅ 0 ∅ ∅ inv_empty) as R. destruct (trun ∅ p) as [o [tenv|]]; cbn [fst snd] in *.
  - destruct R as (h & nx & env & (n0 & E) & I). exists n0. intros n Hn. rewrite E by done. cbn. split; [done|]. exists h, nx, env. split; [done|]. split.
    + intros x. destruct I as [_ I]. specialize (I x). destruct (env !! x), (tenv !! x); try done; split; done.
    + intros x v t Ev Et. destruct (inv_some _ _ _ _ _ _ I Ev) as (t' & Et' & D & _). rewrite Et in Et'. injection Et' as <-. now apply read_ok.
  - destruct R as (n0 & E). exists n0. intros n Hn. rewrite E by done. done.
Qed.
(** The variables a statement may change. *)
Definition targets (s : stmt) : list nat :=
  match s with SLet x _ | SSet x _ | SPush _ x | SSetIndex x _ _ | SSetField x _ _ | SPushField _ x _ => [x] | SPop x into => x :: option_list into | SShow _ => [] | SPushPlace _ _ | SSetPlace _ _ _ => [] end.
(** Changing a list through one variable is never seen through another: whatever ran before, [x] prints the same before and after a statement
    that does not name [x] as its target. *)
Lemma trun_app env p q : trun env (p ++ q) = match snd (trun env p) with Some env1 => (fst (trun env p) ++ fst (trun env1 q), snd (trun env1 q)) | None => trun env p end.
Proof.
  revert env. induction p as [|s p IH]; intros env; [cbn; now destruct (trun env q)|]. cbn [app trun]. destruct (texec env s) as [[env1 o]|]; [|done]. rewrite IH. destruct (trun env1 p) as [o1 [env2|]]; cbn; [|done]. now rewrite app_assoc.
Qed.
Lemma texec_other env s env' o x : direct s -> texec env s = Some (env', o) -> ~ In x (targets s) -> env' !! x = env !! x.
Proof.
  intros Di E N. destruct s as [y e|y e|e|e y|y into|y i e|y f e|e y f|e q|q i e]; try done; cbn [texec targets] in *; repeat match type of E with context [?a ≫= _] => destruct a as [?|] eqn:?; cbn [mbind option_bind] in E; [|discriminate] end; try discriminate;
  try (injection E as <- _; try (rewrite lookup_insert_ne by (intros ->; apply N; now left)); done).
  - injection E as <- _. cbn [In] in N. destruct into as [z|]; [destruct (snd _) as [w|]; [rewrite lookup_insert_ne by (intros ->; apply N; right; now left)|]|]; rewrite lookup_insert_ne by (intros ->; apply N; now left); done.
  - destruct t0; try discriminate. injection E as <- _. rewrite lookup_insert_ne by (intros ->; apply N; now left). done.
Qed.
Theorem C88_no_alias : forall p s x, List.Forall direct p -> direct s -> ~ In x (targets s) -> snd (trun ∅ (p ++ [s; SShow (EVar x)])) <> None ->
  exists o u t n0, forall n, n0 <= n -> fst (run true n ∅ 0 ∅ (p ++ [SShow (EVar x)])) = o ++ [t] /\ fst (run true n ∅ 0 ∅ (p ++ [s; SShow (EVar x)])) = o ++ u ++ [t].
Proof.
  intros p s x Hp Hs N T. destruct (C88_values (p ++ [SShow (EVar x)])) as (n1 & H1); [apply List.Forall_app; split; [done|constructor; [done|constructor]]|]. destruct (C88_values (p ++ [s; SShow (EVar x)])) as (n2 & H2); [apply List.Forall_app; split; [done|constructor; [done|constructor; [done|constructor]]]|].
  rewrite trun_app in T, H1, H2. destruct (trun ∅ p) as [o [env|]]; cbn [fst snd] in *; [|done]. cbn [trun] in *. destruct (texec env s) as [[env1 u]|] eqn:E; [|done]. pose proof (texec_other _ _ _ _ x Hs E N) as K. cbn [texec teval] in *. rewrite K in *. destruct (env !! x) as [t|]; cbn [mbind option_bind fst snd] in *; [|done].
  exists o, u, t, (max n1 n2). intros n Hn. destruct (H1 n ltac:(lia)) as [-> _]. destruct (H2 n ltac:(lia)) as [-> _]. done.
Qed.

(** Two variables, the second a copy of the first, then changed in all four ways. *)
Definition two : list stmt := [SLet 0 ENew; SPush (ENum 1) 0; SPush (ENum 2) 0; SLet 1 ENew; SPush (EVar 0) 1; SLet 2 (EVar 1); SPush (ENum 3) 0; SPush (EVar 0) 2; SSetIndex 2 (-1) (ENum 7); SPop 0 (Some 3)].
Example C88_ex : List.Forall direct two /\ exists n0, forall n, n0 <= n ->
  fst (run true n ∅ 0 ∅ (two ++ [SShow (EVar 0); SShow (EVar 1); SShow (EVar 2); SShow (EVar 3)])) =
    [TList [TNum 1; TNum 2]; TList [TList [TNum 1; TNum 2]]; TList [TList [TNum 1; TNum 2]; TNum 7]; TNum 3].
Proof. split; [repeat constructor|]. destruct (C88_values (two ++ [SShow (EVar 0); SShow (EVar 1); SShow (EVar 2); SShow (EVar 3)])) as (n0 & H); [repeat constructor|]. exists n0. intros n Hn. destruct (H n Hn) as [-> _]. reflexivity. Qed.
Example C88_alias_ex : List.Forall direct two /\ direct (SPush (EVar 1) 2) /\ ~ In 1 (targets (SPush (EVar 1) 2)) /\ snd (trun ∅ (two ++ [SPush (EVar 1) 2; SShow (EVar 1)])) <> None.
Proof. split; [repeat constructor|]. split; [done|]. split; [cbn; lia|]. vm_compute. discriminate. Qed.

Ltac forward := let n := fresh in let H := fresh in intros n H; do 8 (destruct n as [|n]; [exfalso; lia|]); vm_compute; auto.
(** Pushing to a structure's list field changes the structure it was copied from: there is no copy-on-write on that path. *)
Theorem C88_push_field_refuted : exists p e x f y, ~ In y (targets (SPushField e x f)) /\ snd (trun ∅ (p ++ [SPushField e x f; SShow (EVar y)])) <> None /\
  exists t u, t <> u /\ forall n, 8 <= n -> fst (run true n ∅ 0 ∅ (p ++ [SShow (EVar y)])) = [t] /\ fst (run true n ∅ 0 ∅ (p ++ [SPushField e x f; SShow (EVar y)])) = [u].
Proof.
  exists [SLet 0 ENew; SLet 1 (EStruct [(0, 0)]); SLet 2 (EVar 1)], (ENum 5), 2, 0, 1. split; [cbn; lia|]. split; [vm_compute; discriminate|]. exists (TStruct [(0, TList [])]), (TStruct [(0, TList [TNum 5])]). split; [discriminate|]. forward.
Qed.
(** Nor on a list reached through another list: [Push 5 to item 1 of b] is seen through [a], of which [b] is a copy. *)
Theorem C88_place_refuted : (exists p e l y, match l with EItem (EVar x) _ => x <> y | _ => False end /\
    exists t u, t <> u /\ forall n, 8 <= n -> fst (run true n ∅ 0 ∅ (p ++ [SShow (EVar y)])) = [t] /\ fst (run true n ∅ 0 ∅ (p ++ [SPushPlace e l; SShow (EVar y)])) = [u]) /\
  (exists p e l i y, match l with EItem (EVar x) _ => x <> y | _ => False end /\
    exists t u, t <> u /\ forall n, 8 <= n -> fst (run true n ∅ 0 ∅ (p ++ [SShow (EVar y)])) = [t] /\ fst (run true n ∅ 0 ∅ (p ++ [SSetPlace l i e; SShow (EVar y)])) = [u]).
Proof.
  split.
  - exists [SLet 0 ENew; SLet 1 ENew; SPush (EVar 0) 1; SLet 2 (EVar 1)], (ENum 5), (EItem (EVar 2) 1), 1. split; [cbn; lia|]. exists (TList [TList []]), (TList [TList [TNum 5]]). split; [discriminate|]. forward.
  - exists [SLet 0 ENew; SPush (ENum 3) 0; SLet 1 ENew; SPush (EVar 0) 1; SLet 2 (EVar 1)], (ENum 5), (EItem (EVar 2) 1), 1%Z, 1. split; [cbn; lia|]. exists (TList [TList [TNum 3]]), (TList [TList [TNum 5]]). split; [discriminate|]. forward.
Qed.
(** Without copy-on-write (reference semantics) a push through one variable is seen through the other. *)
Theorem C88_reference_mode_refuted : exists p e x y, ~ In y (targets (SPush e x)) /\ exists t u, t <> u /\
  forall n, 8 <= n -> fst (run false n ∅ 0 ∅ (p ++ [SShow (EVar y)])) = [t] /\ fst (run false n ∅ 0 ∅ (p ++ [SPush e x; SShow (EVar y)])) = [u].
Proof.
  exists [SLet 0 ENew; SLet 1 (EVar 0)], (ENum 5), 1, 0. split; [cbn; lia|]. exists (TList []), (TList [TNum 5]). split; [discriminate|]. forward.
Qed.
