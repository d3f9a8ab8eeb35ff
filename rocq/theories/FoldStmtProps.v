(** C80: folding the statements of a program. *)
From Coq Require Import ZArith List Bool Lia.
From Verif Require Import MachInt FoldModel FoldProofs FoldMain FoldProps FoldStmtModel FoldStmtProofs FoldStmtBools.
Import ListNotations.

(** A program and its functions, folded, run as before: same result, same variables, same output, at every depth, when
    the execution is regular with the symbols taken for booleans. *)
Theorem C80_fold {W : Type} P items ext (show : value -> W -> W) ord F n p s : (forall t, display P (VText t) = t) ->
  reg P items ext show (collected ord) F n (in_syms (collect_bool_syms ord [] p)) p s ->
  exec P items ext show (folded ord F) n (fold_stmts ord p) s = exec P items ext show F n p s.
Proof. intros D R. apply (exec_agree P items ext show ord D F n _ p s R). Qed.

(** Whatever the order in which the written symbols are visited, a symbol taken for a boolean is a Bool parameter, or each
    write to it is annotated Bool, a comparison, a logical operation, a boolean literal or another such symbol. *)
Theorem C80_collect ord ps body x : In x (collect_bool_syms ord ps body) ->
  In (x, true) ps \/ forall ann e, In (x, ann, e) (collect_writes body) -> ann = true \/ expr_is_boolish (in_syms (collect_bool_syms ord ps body)) e = true.
Proof. apply collect_justified. Qed.

(** In a program without functions whose loop variables are not among them, the symbols taken for booleans hold nothing
    else, so the program runs as before when its execution is regular with no symbol taken for one. *)
Theorem C80_program {W : Type} P items ext (show : value -> W -> W) ord n p w : (forall t, display P (VText t) = t) ->
  let s := State (fun _ => None) (fun _ => None) (fun _ => None) [] [] w in
  (forall x, In x (collect_bool_syms ord [] p) -> ~ In x (loop_vars p)) ->
  reg P items ext show (collected ord) (fun _ => None) n (fun _ => false) p s ->
  exec P items ext show (fun _ => None) n (fold_stmts ord p) s = exec P items ext show (fun _ => None) n p s.
Proof.
  intros D s L R. apply (C80_fold P items ext show ord (fun _ => None) n p s D).
  refine (proj1 (main_keeps P items ext show (collected ord) (in_syms (collect_bool_syms ord [] p)) n p s _ _ R)).
  - split; cbn; try reflexivity; intros; try exact Logic.I; contradiction.
  - split.
    + intros x B. apply member_spec in B. destruct (collect_justified ord [] p x B) as [[] | J]. exact J.
    + intros x B. apply L. apply member_spec, B.
Qed.
(** The booleans themselves: at the end such a symbol holds a boolean or nothing. *)
Theorem C80_booleans {W : Type} P items ext (show : value -> W -> W) ord n p (w : W) fl s' x : (forall t, display P (VText t) = t) ->
  let s := State (fun _ => None) (fun _ => None) (fun _ => None) [] [] w in
  (forall y, In y (collect_bool_syms ord [] p) -> ~ In y (loop_vars p)) ->
  reg P items ext show (collected ord) (fun _ => None) n (fun _ => false) p s ->
  exec P items ext show (fun _ => None) n p s = (Ok fl, s') -> In x (collect_bool_syms ord [] p) ->
  forall v, lookup s' x = Some v -> exists b, v = VBool b.
Proof.
  intros D s L R E I v Lk. assert (K : keeps (in_syms (collect_bool_syms ord [] p)) (exec P items ext show (fun _ => None) n p s)).
  { refine (proj2 (main_keeps P items ext show (collected ord) (in_syms (collect_bool_syms ord [] p)) n p s _ _ R)).
    - split; cbn; try reflexivity; intros; try exact Logic.I; contradiction.
    - split.
      + intros y B. apply member_spec in B. destruct (collect_justified ord [] p y B) as [[] | J]. exact J.
      + intros y B. apply L. apply member_spec, B. }
  apply (inv_look (in_syms (collect_bool_syms ord [] p)) s' x v (K fl s' E)); [apply member_spec, I | exact Lk].
Qed.

(** ** What the conditions exclude *)
Definition log := list value.
Definition start : state log := State (fun _ => None) (fun _ => None) (fun _ => None) [] [] [].
Definition list_items (v : value) : option (list value) := match v with VList l => Some l | _ => None end.
(** Tag 0 builds a sequence of its operands. *)
Definition ext0 (t : nat) (vs : list value) (w : log) : outcome value * log := (Ok (VList vs), w).
Definition go (F : nat -> option func) (p : list stmt) : outcome flow * log := let '(r, s) := exec p0 list_items ext0 (fun v w => v :: w) F 20 p start in (r, world s).
Definition as_is (l : list nat) : list nat := l.
(** Let flag be true. Repeat for flag in [5]: Show not not flag. It shows true; folded it shows 5. *)
Theorem C80_loop_refuted : exists p, go (fun _ => None) p = (Ok Next, [VBool true]) /\ go (fun _ => None) (fold_stmts as_is p) = (Ok Next, [VInt 5]).
Proof. exists [SLet 0 false false (boolean true); SRepeat 0 (EOther 0 [num 5]) [SShow (ENot (ENot (EId 0)))]]. split; vm_compute; reflexivity. Qed.
(** A function sets the global flag to 5: main shows not not flag, true before folding and 5 after. *)
Theorem C80_function_refuted : exists F p, go F p = (Ok Next, [VBool true]) /\ go (folded as_is F) (fold_stmts as_is p) = (Ok Next, [VInt 5]).
Proof.
  exists (fun t => if Nat.eqb t 7 then Some ([], [SSet 0 (num 5)]) else None), [SLet 0 false false (boolean true); SEff 7 []; SShow (ENot (ENot (EId 0)))]. split; vm_compute; reflexivity.
Qed.
(** A parameter of type Bool is not checked: called with 5, the function shows not not of it. *)
Theorem C80_parameter_refuted : exists F p, go F p = (Ok Next, [VBool true]) /\ go (folded as_is F) (fold_stmts as_is p) = (Ok Next, [VInt 5]).
Proof.
  exists (fun t => if Nat.eqb t 7 then Some ([(0%nat, true)], [SShow (ENot (ENot (EId 0)))]) else None), [SEff 7 [num 5]]. split; vm_compute; reflexivity.
Qed.

(** Let n be 3 + 4. Let ok be n > 5. While not not ok: Show n * 1. Set ok be false and ok. If ok: Show 1. *)
Definition ex_prog : list stmt :=
  [SLet 1 false false (EBin Add (num 3) (num 4)); SLet 0 false false (EBin Gt (EId 1) (num 5)); SWhile (ENot (ENot (EId 0))) [SShow (EBin Multiply (EId 1) (num 1)); SSet 0 (EBin And (boolean false) (EId 0))]; SIf (EId 0) [SShow (num 1)] None].
Ltac known := match goal with E : _ = (Ok _, _) |- _ => vm_compute in E; try discriminate E; injection E; clear E; intros; subst end.
Ltac plain := split; [intros H; try contradiction; left; split; cbn; unfold is_i64; lia |]; split; [discriminate |]; split; [discriminate | intros _; vm_compute; discriminate].
Example C80_program_example : fold_stmts as_is ex_prog = [SLet 1 false false (num 7); SLet 0 false false (EBin Gt (EId 1) (num 5)); SWhile (EId 0) [SShow (EId 1); SSet 0 (boolean false)]; SIf (EId 0) [SShow (num 1)] None] /\
  collect_bool_syms as_is [] ex_prog = [0%nat] /\ loop_vars ex_prog = [] /\ reg p0 list_items ext0 (fun v w => v :: w) (collected as_is) (fun _ => None) 12 (fun _ => false) ex_prog start /\
  go (fun _ => None) ex_prog = (Ok Next, [VInt 7]).
Proof.
  split; [vm_compute; reflexivity |]. split; [vm_compute; reflexivity |]. split; [reflexivity |]. split; [| vm_compute; reflexivity].
  assert (G : forall v w, regular_op p0 Gt (VInt v) (VInt w)) by (intros v w; split; [intros [] |]; split; [discriminate |]; split; [discriminate |]; intros _; discriminate).
  cbn [ex_prog reg]. split.
  { split; [| discriminate]. cbn [regular]. split; [exact Logic.I |]. intros v s1 E. split; [exact Logic.I |]. intros w s2 E2. known. known. plain. }
  intros s1 E. known. split.
  { split; [| discriminate]. cbn [regular]. split; [eexists; split; [reflexivity | discriminate] |]. intros v s1 E. split; [exact Logic.I |]. intros w s2 E2. known. known. apply G. }
  intros s1 E. known. split.
  { split; [eexists; split; [reflexivity | discriminate] |]. intros v s1 E _. known. split.
    - cbn [reg]. split.
      + cbn [reg_stmt regular]. split; [eexists; split; [reflexivity | discriminate] |]. intros v s1 E. split; [exact Logic.I |]. intros w s2 E2. known. known. plain.
      + intros s1 E. known. split; [| intros s1 E; exact Logic.I]. cbn [reg_stmt regular]. split; [exact Logic.I |]. intros v s1 E T. known. discriminate.
    - intros s2 E. known. cbn [reg]. split; [| intros s1 E; exact Logic.I]. split; [eexists; split; [reflexivity | discriminate] |]. intros v s1 E T. known. discriminate. }
  intros s1 E. known. split; [| intros s1 E; exact Logic.I]. split; [eexists; split; [reflexivity | discriminate] |]. intros v s1 E. known. exact Logic.I.
Qed.
