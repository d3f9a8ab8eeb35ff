(** What the scan for dead stores finds, and that the eliminated program stands in the relation of DceProofs to the
    original. *)
From Coq Require Import ZArith List Bool Lia.
From Verif Require Import FoldModel FoldProofs FoldMain FoldStmtModel PropProofs DceModel DceExec DceProofs.
Import ListNotations.
Local Open Scope nat_scope.

Section Alg.
Context (opaque clears unseen : nat -> bool).
Notation analyzable := (analyzable opaque). Notation stmt_reads := (stmt_reads unseen). Notation step := (step opaque clears unseen). Notation scan := (scan opaque clears unseen).
Notation keeps := (keeps opaque clears unseen). Notation dce_stmt := (dce_stmt opaque clears unseen). Notation select := (select opaque clears unseen). Notation eliminate_dead_code := (eliminate_dead_code opaque clears unseen).
(** ** The scan *)
(** A Set of [x] follows before anything that reads it or that could. *)
Fixpoint killed (x : nat) (p : list stmt) : bool :=
  match p with
  | [] => false
  | st :: r =>
      match st with
      | SSet y e => analyzable e && negb (member x (expr_reads e)) && (Nat.eqb y x || killed x r)
      | SIf _ _ _ | SWhile _ _ | SRepeat _ _ _ => false
      | SEff t _ => negb (clears t) && negb (member x (stmt_reads st)) && killed x r
      | _ => negb (member x (stmt_reads st)) && killed x r
      end
  end.
Definition dead (st : stmt) (r : list stmt) : bool := match st with SSet x e => analyzable e && killed x r | _ => false end.
Fixpoint dead_at (i : nat) (p : list stmt) (j : nat) : Prop := match p with [] => False | st :: r => (j = i /\ dead st r = true) \/ dead_at (S i) r j end.
Lemma find_filter x Q l : find x (filter (fun q => Q (fst q)) l) = if Q x then find x l else None.
Proof.
  unfold find. induction l as [| [y j] l IH]; [destruct (Q x); reflexivity |]. cbn [filter fst]. destruct (Q y) eqn:Qy; cbn [List.find fst].
  - destruct (Nat.eqb_spec y x) as [-> | N]; [rewrite Qy; reflexivity | exact IH].
  - destruct (Nat.eqb_spec y x) as [-> | N]; [rewrite Qy in *; exact IH | exact IH].
Qed.
Lemma find_cons x y i l : find x ((y, i) :: l) = if Nat.eqb y x then Some i else find x l.
Proof. unfold find. cbn [List.find fst]. destruct (Nat.eqb y x); reflexivity. Qed.
Lemma find_drop x y l : find x (drop y l) = if Nat.eqb x y then None else find x l.
Proof. unfold drop. rewrite (find_filter x (fun z => negb (Nat.eqb z y))). destruct (Nat.eqb x y); reflexivity. Qed.
Lemma scan_spec p : forall i last dd j, In j (scan i p last dd) <-> In j dd \/ (exists x, find x last = Some j /\ killed x p = true) \/ dead_at i p j.
Proof.
  induction p as [| st r IH]; intros i last dd j; cbn [DceModel.scan dead_at killed].
  - split; [auto | intros [H | [(x & _ & H) | []]]; [exact H | discriminate]].
  - set (l1 := filter (fun q => negb (member (fst q) (stmt_reads st))) last). assert (L1 : forall x, find x l1 = if negb (member x (stmt_reads st)) then find x last else None) by (intros x; apply (find_filter x (fun y => negb (member y (stmt_reads st))) last)).
    assert (Plain : step i st last dd = (l1, dd) -> dead st r = false -> (forall x, match st with SSet y e => analyzable e && negb (member x (expr_reads e)) && (Nat.eqb y x || killed x r) | SIf _ _ _ | SWhile _ _ | SRepeat _ _ _ => false | SEff t _ => negb (clears t) && negb (member x (stmt_reads st)) && killed x r | _ => negb (member x (stmt_reads st)) && killed x r end = negb (member x (stmt_reads st)) && killed x r) ->
      In j (let '(last, dead) := step i st last dd in scan (S i) r last dead) <-> In j dd \/ (exists x, find x last = Some j /\ match st with SSet y e => analyzable e && negb (member x (expr_reads e)) && (Nat.eqb y x || killed x r) | SIf _ _ _ | SWhile _ _ | SRepeat _ _ _ => false | SEff t _ => negb (clears t) && negb (member x (stmt_reads st)) && killed x r | _ => negb (member x (stmt_reads st)) && killed x r end = true) \/ (j = i /\ dead st r = true) \/ dead_at (S i) r j).
    { intros -> -> K. rewrite IH. split.
      - intros [H | [(x & H & H2) | H]]; [auto | | auto]. right. left. exists x. rewrite K. rewrite L1 in H. destruct (negb (member x (stmt_reads st))); [auto | discriminate].
      - intros [H | [(x & H & H2) | [[_ H] | H]]]; [auto | | discriminate | auto]. right. left. exists x. rewrite K in H2. apply andb_prop in H2 as [H2 H3]. rewrite L1, H2. auto. }
    assert (Cut : step i st last dd = ([], dd) -> dead st r = false -> (forall x, match st with SSet y e => analyzable e && negb (member x (expr_reads e)) && (Nat.eqb y x || killed x r) | SIf _ _ _ | SWhile _ _ | SRepeat _ _ _ => false | SEff t _ => negb (clears t) && negb (member x (stmt_reads st)) && killed x r | _ => negb (member x (stmt_reads st)) && killed x r end = false) ->
      In j (let '(last, dead) := step i st last dd in scan (S i) r last dead) <-> In j dd \/ (exists x, find x last = Some j /\ match st with SSet y e => analyzable e && negb (member x (expr_reads e)) && (Nat.eqb y x || killed x r) | SIf _ _ _ | SWhile _ _ | SRepeat _ _ _ => false | SEff t _ => negb (clears t) && negb (member x (stmt_reads st)) && killed x r | _ => negb (member x (stmt_reads st)) && killed x r end = true) \/ (j = i /\ dead st r = true) \/ dead_at (S i) r j).
    { intros -> -> K. rewrite IH. split.
      - intros [H | [(x & H & H2) | H]]; [auto | discriminate | auto].
      - intros [H | [(x & H & H2) | [[_ H] | H]]]; [auto | rewrite K in H2; discriminate | discriminate | auto]. }
    destruct st as [y a m e | y e | c t f | c b | y e b | e | | e | t args].
    + apply Plain; reflexivity.
    + destruct (analyzable e) eqn:An; [clear Plain Cut | apply Cut; [unfold DceModel.step; rewrite An; reflexivity | unfold dead; rewrite An; reflexivity | reflexivity]].
      unfold DceModel.step. rewrite An. fold l1. cbn [dead]. rewrite An. cbn [andb]. rewrite IH. cbn [DceModel.stmt_reads] in L1. split.
      * intros [H | [(x & H & H2) | H]]; [| | auto].
        -- destruct (find y l1) as [k |] eqn:Fy; [| auto]. destruct H as [-> | H]; [| auto]. right. left. exists y. rewrite L1 in Fy. destruct (negb (member y (expr_reads e))); [| discriminate]. rewrite Nat.eqb_refl. auto.
        -- rewrite find_cons in H. destruct (Nat.eqb_spec y x) as [-> | N]; [injection H as <-; auto |]. rewrite find_drop in H. destruct (Nat.eqb_spec x y) as [Exy | _]; [discriminate |]. right. left. exists x. rewrite L1 in H. destruct (negb (member x (expr_reads e))); [| discriminate]. rewrite H2. rewrite orb_true_r. auto.
      * intros [H | [(x & H & H2) | [[-> H] | H]]]; [left; destruct (find y l1); [right |]; exact H | | right; left; exists y; rewrite find_cons, Nat.eqb_refl; auto | auto].
        apply andb_prop in H2 as [H2 H3]. assert (Fx : find x l1 = Some j) by (rewrite L1, H2; exact H). destruct (Nat.eqb_spec y x) as [-> | N]; [left; rewrite Fx; left; reflexivity |]. right. left. exists x. rewrite find_cons, find_drop. destruct (Nat.eqb_spec y x); [contradiction |]. destruct (Nat.eqb_spec x y) as [Exy | _]; [congruence |]. auto.
    + apply Cut; reflexivity.
    + apply Cut; reflexivity.
    + apply Cut; reflexivity.
    + apply Plain; reflexivity.
    + apply Plain; reflexivity.
    + apply Plain; reflexivity.
    + destruct (clears t) eqn:Cl; [apply Cut | apply Plain]; try reflexivity; unfold DceModel.step; rewrite Cl; reflexivity.
Qed.
Fixpoint flags (p : list stmt) : list bool := match p with [] => [] | st :: r => negb (dead st r) :: flags r end.
Lemma dead_at_range i p j : dead_at i p j -> i <= j.
Proof. revert i. induction p as [| st r IH]; intros i; [intros [] |]. intros [[-> _] | H]; [lia |]. apply IH in H. lia. Qed.
Lemma keeps_flags p : keeps p = flags p.
Proof.
  unfold DceModel.keeps. assert (G : forall q i (Q : nat -> bool), (forall j, i <= j -> (Q j = true <-> dead_at i q j)) -> map (fun j => negb (Q j)) (seq i (length q)) = flags q).
  { induction q as [| st r IH]; intros i Q HQ; [reflexivity |]. cbn [length seq map flags]. f_equal.
    - f_equal. apply eq_true_iff_eq. rewrite (HQ i (le_n i)). cbn [dead_at]. split; [intros [[_ H] | H]; [exact H | apply dead_at_range in H; lia] | auto].
    - apply (IH (S i) Q). intros j L. rewrite (HQ j) by lia. cbn [dead_at]. split; [intros [[-> _] | H]; [lia | exact H] | auto]. }
  apply (G p 0 (fun i => member i (scan 0 p [] []))). intros j _. rewrite member_in, scan_spec. split; [intros [[] | [(x & H & _) | H]]; [discriminate | exact H] | auto].
Qed.
(** ** What makes a removal harmless *)
(** [st] does nothing to the tracking of dead stores: it is no If, While or Repeat, no call statement, no Set of an
    opaque value. *)
Definition straight (st : stmt) : Prop :=
  match st with SIf _ _ _ | SWhile _ _ | SRepeat _ _ _ => False | SEff t _ => clears t = false | SSet _ e => analyzable e = true | _ => True end.
(** [st] indeed does not look at [x], nor bind it, nor leave the block. *)
Definition harmless (x : nat) (st : stmt) : Prop :=
  match st with
  | SLet y _ _ e => y <> x /\ analyzable e = true
  | SSet _ e | SShow e => analyzable e = true
  | SEff t args => forallb analyzable args = true /\ ~ In x (flat_map expr_reads args)
  | _ => False
  end.
Definition passes (x : nat) (st : stmt) : Prop := straight st /\ ~ In x (stmt_reads st).
(** Between two Sets of a symbol with nothing in between that reads it, all is harmless. *)
Definition tidy (p : list stmt) : Prop :=
  forall a x e m e' c, p = a ++ SSet x e :: m ++ SSet x e' :: c -> analyzable e = true -> analyzable e' = true -> ~ In x (expr_reads e') -> Forall (passes x) m -> Forall (harmless x) m.
Fixpoint safe (x : nat) (p : list stmt) : Prop :=
  match p with
  | [] => True
  | SSet y e :: r => y = x \/ safe x r
  | SLet y _ _ e :: r => y <> x /\ analyzable e = true /\ safe x r
  | SShow e :: r => analyzable e = true /\ safe x r
  | SEff _ args :: r => forallb analyzable args = true /\ ~ In x (flat_map expr_reads args) /\ safe x r
  | _ => False
  end.
Lemma not_member x l : negb (member x l) = true <-> ~ In x l.
Proof. rewrite negb_true_iff, <- member_in. destruct (member x l); split; try discriminate; auto. intros H. exfalso. apply H. reflexivity. Qed.
Lemma killed_split x p : killed x p = true -> exists m e' c, p = m ++ SSet x e' :: c /\ analyzable e' = true /\ ~ In x (expr_reads e') /\ Forall (passes x) m /\ (Forall (harmless x) m -> safe x p).
Proof.
  assert (K : forall st r, straight st -> ~ In x (stmt_reads st) -> (harmless x st -> safe x r -> safe x (st :: r)) ->
    (exists m e' c, r = m ++ SSet x e' :: c /\ analyzable e' = true /\ ~ In x (expr_reads e') /\ Forall (passes x) m /\ (Forall (harmless x) m -> safe x r)) ->
    exists m e' c, st :: r = m ++ SSet x e' :: c /\ analyzable e' = true /\ ~ In x (expr_reads e') /\ Forall (passes x) m /\ (Forall (harmless x) m -> safe x (st :: r))).
  { intros st r St Nr Hs (m & e' & c & -> & A & N & Pm & Sf). exists (st :: m), e', c. split; [reflexivity |]. split; [exact A |]. split; [exact N |]. split; [constructor; [split; assumption | exact Pm] |]. intros Hm. inversion Hm; subst. auto. }
  induction p as [| st r IH]; [discriminate |]. destruct st as [y a m e | y e | c t f | c b | y e b | e | | e | t args]; cbn [killed]; intros H; try discriminate.
  - apply andb_prop in H as [H1 H2]. apply not_member in H1. apply K; [exact I | exact H1 | intros [Q1 Q2] Q3; repeat split; assumption | apply IH, H2].
  - apply andb_prop in H as [H H2]. apply andb_prop in H as [H0 H1]. apply not_member in H1. destruct (Nat.eqb_spec y x) as [-> | Ny].
    + exists [], e, r. split; [reflexivity |]. split; [exact H0 |]. split; [exact H1 |]. split; [constructor |]. intros _. left. reflexivity.
    + apply K; [exact H0 | exact H1 | intros _ Q; right; exact Q | apply IH, H2].
  - apply andb_prop in H as [H1 H2]. apply not_member in H1. apply K; [exact I | exact H1 | intros [] | apply IH, H2].
  - apply K; [exact I | intros [] | intros [] | apply IH, H].
  - apply andb_prop in H as [H1 H2]. apply not_member in H1. apply K; [exact I | exact H1 | intros Q1 Q3; split; assumption | apply IH, H2].
  - apply andb_prop in H as [H H2]. apply andb_prop in H as [H0 H1]. apply not_member in H1. apply negb_true_iff in H0. apply K; [exact H0 | exact H1 | intros [Q1 Q2] Q3; repeat split; assumption | apply IH, H2].
Qed.
Lemma tidy_tail st r : tidy (st :: r) -> tidy r.
Proof. intros T a x e m e' c E. apply (T (st :: a) x e m e' c). rewrite E. reflexivity. Qed.
Lemma tidy_head x e r : tidy (SSet x e :: r) -> analyzable e = true -> killed x r = true -> safe x r.
Proof. intros T An K. destruct (killed_split x r K) as (m & e' & c & -> & A & N & Pm & Sf). apply Sf, (T [] x e m e' c eq_refl An A N Pm). Qed.
(** The condition at every depth; and the branch that takes the place of an If binds nothing at its top. *)
Fixpoint tidy_stmt (st : stmt) : Prop :=
  let all := fix go p := match p with [] => True | st :: r => tidy_stmt st /\ go r end in
  match st with
  | SIf c t f => (tidy t /\ all t) /\ (match f with Some b => tidy b /\ all b | None => True end) /\ (c = ELit (LBool true) -> no_let t) /\ (c = ELit (LBool false) -> match f with Some b => no_let b | None => True end)
  | SWhile _ b | SRepeat _ _ b => tidy b /\ all b
  | _ => True
  end.
Definition tidy_all : list stmt -> Prop := fix go p := match p with [] => True | st :: r => tidy_stmt st /\ go r end.
Definition tidy_block (p : list stmt) : Prop := tidy p /\ tidy_all p.

Context (F : nat -> option func).
Hypothesis calls : forall t, F t <> None -> clears t = true.
Notation rel := (rel opaque F). Notation rels := (rels opaque F). Notation relb := (relb opaque F).
(** One statement outside any pending store. *)
Definition good (st : stmt) : Prop := tidy_stmt st -> forall p q, rel [] p q -> rel [] (st :: p) (dce_stmt st ++ q).
Lemma select_rel p : Forall good p -> forall D, (forall x, In x D -> killed x p = true /\ safe x p) -> tidy p -> tidy_all p -> rel D p (select (flags p) p).
Proof.
  induction p as [| st r IH]; intros G D HD T TA.
  - destruct D as [| x D]; [constructor |]. destruct (HD x (or_introl eq_refl)) as [H _]. discriminate.
  - inversion G as [| ? ? Gs Gr]; subst. destruct TA as [Ts Tr]. change (tidy_all r) in Tr. cbn [flags DceModel.select]. change (rel D (st :: r) ((if negb (dead st r) then dce_stmt st else []) ++ select (flags r) r)).
    pose proof (tidy_tail _ _ T) as T2. destruct (dead st r) eqn:Dd; cbn [negb app].
    + destruct st as [y a m e | y e | c t f | c b | y e b | e | | e | t args]; try discriminate. cbn [dead] in Dd. apply andb_prop in Dd as [An K]. apply rel_dead; [exact An | |].
      * intros x Ix ID. destruct (HD x ID) as [H _]. cbn [killed] in H. apply andb_prop in H as [H _]. apply andb_prop in H as [_ H]. apply not_member in H. contradiction.
      * apply (IH Gr); [| exact T2 | exact Tr]. intros x Ix. destruct (Nat.eq_dec y x) as [-> | Ny]; [split; [exact K | apply (tidy_head x e r T An K)] |]. destruct Ix as [-> | Ix]; [contradiction |]. destruct (HD x Ix) as [H S]. cbn [killed] in H. apply andb_prop in H as [_ H]. destruct (Nat.eqb_spec y x); [contradiction |]. split; [exact H |]. destruct S as [S | S]; [contradiction | exact S].
    + destruct D as [| d D]; [apply (Gs Ts), (IH Gr); [intros x [] | exact T2 | exact Tr] |].
      destruct st as [y a m e | y e | c t f | c b | y e b | e | | e | t args]; try (destruct (HD d (or_introl eq_refl)) as [H S]; cbn [killed safe] in *; discriminate || contradiction).
      * apply rel_let.
        -- apply (HD d (or_introl eq_refl)).
        -- intros x Ix ID. destruct (HD x ID) as [H _]. cbn [killed] in H. apply andb_prop in H as [H _]. apply not_member in H. contradiction.
        -- intros ID. destruct (HD y ID) as [_ [S _]]. apply S. reflexivity.
        -- apply (IH Gr); [| exact T2 | exact Tr]. intros x Ix. destruct (HD x Ix) as [H (_ & _ & S)]. cbn [killed] in H. apply andb_prop in H as [_ H]. auto.
      * apply rel_set.
        -- destruct (HD d (or_introl eq_refl)) as [H _]. cbn [killed] in H. apply andb_prop in H as [H _]. apply andb_prop in H as [H _]. exact H.
        -- intros x Ix ID. destruct (HD x ID) as [H _]. cbn [killed] in H. apply andb_prop in H as [H _]. apply andb_prop in H as [_ H]. apply not_member in H. contradiction.
        -- apply (IH Gr); [| exact T2 | exact Tr]. intros x Ix. apply in_remove in Ix as [Ix Nx]. destruct (HD x Ix) as [H S]. cbn [killed] in H. apply andb_prop in H as [_ H]. destruct (Nat.eqb_spec y x) as [-> | Ny]; [contradiction |]. split; [exact H |]. destruct S as [S | S]; [contradiction | exact S].
      * apply rel_show.
        -- apply (HD d (or_introl eq_refl)).
        -- intros x Ix ID. destruct (HD x ID) as [H _]. cbn [killed] in H. apply andb_prop in H as [H _]. apply not_member in H. contradiction.
        -- apply (IH Gr); [| exact T2 | exact Tr]. intros x Ix. destruct (HD x Ix) as [H (_ & S)]. cbn [killed] in H. apply andb_prop in H as [_ H]. auto.
      * apply rel_eff.
        -- destruct (HD d (or_introl eq_refl)) as [H _]. cbn [killed] in H. apply andb_prop in H as [H _]. apply andb_prop in H as [H _]. destruct (F t) eqn:Ft; [| reflexivity]. rewrite calls in H; [discriminate | rewrite Ft; discriminate].
        -- apply (HD d (or_introl eq_refl)).
        -- intros x Ix ID. destruct (HD x ID) as [_ (_ & S & _)]. contradiction.
        -- apply (IH Gr); [| exact T2 | exact Tr]. intros x Ix. destruct (HD x Ix) as [H (_ & _ & S)]. cbn [killed] in H. apply andb_prop in H as [_ H]. auto.
Qed.
Lemma block_rel b : Forall good b -> tidy b -> tidy_all b -> relb b (trunc (select (keeps b) b)).
Proof. intros G T TA. apply relb_trunc. rewrite keeps_flags. apply select_rel; auto. intros x []. Qed.
Lemma stmt_good st : good st.
Proof.
  induction st as [y a m e | y e | c t f IHt IHf | c b IHb | y e b IHb | e | | e | t a] using stmt_ind2; intros T p q R; try (apply rel_stmt; [apply rels_same | exact R]).
  - destruct T as ((T1 & T2) & T3 & T4 & T5). change (tidy_all t) in T2. pose proof (block_rel t IHt T1 T2) as Bt.
    assert (Bf : relo opaque F f (match f with Some b => Some (trunc (select (keeps b) b)) | None => None end)) by (destruct f as [f |]; [| constructor]; destruct T3 as [T3 T3']; change (tidy_all f) in T3'; apply relo_some, (block_rel f IHf T3 T3')).
    assert (K : rel [] (SIf c t f :: p) ([SIf c (trunc (select (keeps t) t)) (match f with Some b => Some (trunc (select (keeps b) b)) | None => None end)] ++ q)) by (apply rel_stmt; [apply rels_if; [exact Bt | exact Bf] | exact R]).
    destruct c as [[z | fl | [|] | s | | o] | | | | |]; try exact K.
    + apply rel_true; [apply T4; reflexivity | exact R].
    + cbn [DceModel.dce_stmt]. destruct f as [f |]; [apply rel_false; [apply T5; reflexivity | exact R] | apply rel_false_none, R].
  - destruct T as (T1 & T2). change (tidy_all b) in T2. pose proof (block_rel b IHb T1 T2) as Bb.
    assert (K : rel [] (SWhile c b :: p) ([SWhile c (trunc (select (keeps b) b))] ++ q)) by (apply rel_stmt; [apply rels_while, Bb | exact R]).
    destruct c as [[z | fl | [|] | s | | o] | | | | |]; try exact K. apply rel_never, R.
  - destruct T as (T1 & T2). change (tidy_all b) in T2. pose proof (block_rel b IHb T1 T2) as Bb. assert (K : rel [] (SRepeat y e b :: p) ([SRepeat y e (trunc (select (keeps b) b))] ++ q)) by (apply rel_stmt; [apply rels_repeat, Bb | exact R]). exact K.
Qed.
Lemma eliminate_rel p : tidy_block p -> relb p (eliminate_dead_code p).
Proof. intros [T TA]. apply block_rel; [apply Forall_forall; intros st _; apply stmt_good | exact T | exact TA]. Qed.
End Alg.
