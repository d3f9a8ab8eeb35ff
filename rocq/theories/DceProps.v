(** C81: dead store and dead branch elimination. *)
From Coq Require Import ZArith List Bool Lia.
From Verif Require Import MachInt FoldModel FoldProofs FoldMain FoldProps FoldStmtModel FoldStmtProofs FoldStmtProps DceModel DceExec DceProofs DceAlg.
Import ListNotations.
Local Open Scope nat_scope.

(** Every execution that ends well ends the same way (same result, variables and output) once dead code is gone from the
    program and its functions, when the expression forms taken for transparent are pure and no user functions, calls of
    functions clear the tracking, and what lies between two Sets of a symbol is harmless. *)
Theorem C81_eliminate {W : Type} P items ext (show : value -> W -> W) opaque clears unseen F n p (s : state W) fl s' :
  (forall t, F t <> None -> opaque t = true /\ clears t = true) -> (forall t vs w, opaque t = false -> snd (ext t vs w) = w) ->
  tidy_block opaque clears unseen p -> (forall t ps body, F t = Some (ps, body) -> tidy_block opaque clears unseen body) ->
  exec P items ext show F n p s = (Ok fl, s') ->
  exists m, exec P items ext show (fun t => option_map (dce_func opaque clears unseen) (F t)) m (eliminate_dead_code opaque clears unseen p) s = (Ok fl, s').
Proof.
  intros Fo Pu Tp Tf E. assert (Cl : forall t, F t <> None -> clears t = true) by (intros t H; apply Fo, H). exists (2 ^ n).
  set (F' := fun t => option_map (dce_func opaque clears unseen) (F t)).
  assert (HF : forall t, match F t, F' t with None, None => True | Some (ps, b), Some (ps', b') => ps = ps' /\ relb opaque F b b' | _, _ => False end).
  { intros t. unfold F'. destruct (F t) as [[ps b] |] eqn:Ft; cbn; [| exact I]. split; [reflexivity | apply eliminate_rel; [exact Cl | apply (Tf t ps b Ft)]]. }
  assert (So : forall t, F t <> None -> opaque t = true) by (intros t H; apply Fo, H). unfold eliminate_dead_code. rewrite exec_trunc, keeps_flags. destruct Tp as [T1 T2].
  apply (exec_sim P items ext show opaque F F' So Pu HF n [] p _ s s fl s'); [| apply agree_refl | exact E]. apply select_rel; [exact Cl | apply Forall_forall; intros st _; apply stmt_good, Cl | intros x [] | exact T1 | exact T2].
Qed.
(** An execution that ends well needs no more than some depth: with any greater one it ends the same way. *)
Theorem C81_depth {W : Type} P items ext (show : value -> W -> W) F n m p (s : state W) fl s' : n <= m ->
  exec P items ext show F n p s = (Ok fl, s') -> exec P items ext show F m p s = (Ok fl, s').
Proof. apply exec_mono. Qed.
(** A block that binds nothing at its top runs as well without a scope of its own. *)
Theorem C81_inline {W : Type} P items ext (show : value -> W -> W) F n b (s : state W) fl s' :
  (forall x a m e, ~ In (SLet x a m e) b) -> block (exec P items ext show F n) b s = (Ok fl, s') -> exec P items ext show F n b s = (Ok fl, s').
Proof. intros N. apply unscoped. unfold no_let. apply Forall_forall. intros st I. destruct st; try exact Logic.I. apply (N _ _ _ _ I). Qed.
Lemma killed_from opaque clears unseen x m e' c : Forall (passes opaque clears unseen x) m -> analyzable opaque e' = true -> ~ In x (expr_reads e') -> killed opaque clears unseen x (m ++ SSet x e' :: c) = true.
Proof.
  intros Pm A' N'. apply (proj2 (not_member _ _)) in N'. induction Pm as [| st m [S R] _ IHm]; [cbn [app killed]; rewrite A', N', Nat.eqb_refl; reflexivity |].
  apply (proj2 (not_member _ _)) in R. destruct st; cbn [app killed straight] in *; try contradiction; rewrite ?IHm, ?R, ?S; try reflexivity. cbn [stmt_reads] in R. rewrite R, orb_true_r. reflexivity.
Qed.
(** Exactly those Sets go whose symbol is Set again before any statement that reads it, branches, loops or calls. *)
Theorem C81_stores opaque clears unseen p k x e : nth_error p k = Some (SSet x e) ->
  nth_error (keeps opaque clears unseen p) k = Some false <->
  analyzable opaque e = true /\ exists m e' c, skipn (S k) p = m ++ SSet x e' :: c /\ analyzable opaque e' = true /\ ~ In x (expr_reads e') /\ Forall (passes opaque clears unseen x) m.
Proof.
  intros N. rewrite keeps_flags. revert k N. induction p as [| st r IH]; intros k N; [destruct k; discriminate |]. destruct k as [| k]; cbn [nth_error flags skipn] in *; [| apply IH, N].
  injection N as ->. cbn [dead]. split.
  - intros H. injection H as H. apply negb_false_iff, andb_prop in H as [A K]. split; [exact A |]. destruct (killed_split opaque clears unseen x r K) as (m & e' & c & E & A' & N' & Pm & _). eauto 8.
  - intros (A & m & e' & c & -> & A' & N' & Pm). rewrite A. f_equal. apply negb_false_iff. cbn [andb]. apply killed_from; assumption.
Qed.
Theorem C81_kept opaque clears unseen p k st : nth_error p k = Some st -> (forall x e, st <> SSet x e) -> nth_error (keeps opaque clears unseen p) k = Some true.
Proof.
  intros N S. rewrite keeps_flags. revert k N. induction p as [| st' r IH]; intros k N; [destruct k; discriminate |]. destruct k as [| k]; cbn [nth_error flags] in *; [| apply IH, N]. injection N as ->. destruct st; try reflexivity. exfalso. apply (S x e). reflexivity.
Qed.

(** ** What the conditions exclude. Tag 7 is a user function, tag 9 a statement whose operands are not read. *)
Definition fn7 (t : nat) : bool := Nat.eqb t 7.
Definition st9 (t : nat) : bool := Nat.eqb t 9.
Definition op79 (t : nat) : bool := fn7 t || st9 t.
Definition ext9 (t : nat) (vs : list value) (w : log) : outcome value * log := if Nat.eqb t 9 then (Ok VNothing, vs ++ w) else (Ok (VList vs), w).
Definition go9 (F : nat -> option func) (p : list stmt) : outcome flow * log := let '(r, s) := exec p0 list_items ext9 (fun v w => v :: w) F 20 p start in (r, world s).
Definition eliminate0 : list stmt -> list stmt := eliminate_dead_code op79 fn7 st9.
Definition none : nat -> option func := fun _ => None.
(** Let x be 1. If true: Let x be 2. Show x. It shows 1, and 2 once the branch is taken in line. *)
Theorem C81_scope_refuted : exists p, go9 none p = (Ok Next, [VInt 1]) /\ go9 none (eliminate0 p) = (Ok Next, [VInt 2]).
Proof. exists [SLet 0 false false (num 1); SIf (boolean true) [SLet 0 false false (num 2)] None; SShow (EId 0)]. split; vm_compute; reflexivity. Qed.
(** The function 7 shows x. Set x to 1. Let y be the function's result. Set x to 2. It shows 1, and 0 without the first Set. *)
Theorem C81_call_refuted : exists F p, go9 F p = (Ok Next, [VInt 1]) /\ go9 (fun t => option_map (dce_func op79 fn7 st9) (F t)) (eliminate0 p) = (Ok Next, [VInt 0]).
Proof. exists (fun t => if Nat.eqb t 7 then Some ([], [SShow (EId 0)]) else None), [SLet 0 false true (num 0); SSet 0 (num 1); SLet 1 false false (EOther 7 []); SSet 0 (num 2)]. split; vm_compute; reflexivity. Qed.
(** While true: Set x to 1. Break. Set x to 2. Then Show x: 1, and 0 without the first Set. *)
Theorem C81_break_refuted : exists p, go9 none p = (Ok Next, [VInt 1]) /\ go9 none (eliminate0 p) = (Ok Next, [VInt 0]).
Proof. exists [SLet 0 false true (num 0); SWhile (boolean true) [SSet 0 (num 1); SBreak; SSet 0 (num 2)]; SShow (EId 0)]. split; vm_compute; reflexivity. Qed.
(** Inside a block: Set x to 1. Let x be 2. Set x to 3. After it x is 1, and 0 without the first Set. *)
Theorem C81_shadow_refuted : exists p, go9 none p = (Ok Next, [VInt 1]) /\ go9 none (eliminate0 p) = (Ok Next, [VInt 0]).
Proof. exists [SLet 0 false true (num 0); SLet 1 false false (num 1); SIf (EId 1) [SSet 0 (num 1); SLet 0 false true (num 2); SSet 0 (num 3)] None; SShow (EId 0)]. split; vm_compute; reflexivity. Qed.
(** Set x to 1 / 0. Set x to 2. Show x. It fails, and shows 2 without the first Set. *)
Theorem C81_error_refuted : exists p, go9 none p = (Err, []) /\ go9 none (eliminate0 p) = (Ok Next, [VInt 2]).
Proof. exists [SLet 0 false true (num 0); SSet 0 (EBin Divide (num 1) (num 0)); SSet 0 (num 2); SShow (EId 0)]. split; vm_compute; reflexivity. Qed.
(** Set x to 1. Send x by a statement whose operands are not read. Set x to 2. It sends 1, and 0 without the first Set. *)
Theorem C81_unread_refuted : exists p, go9 none p = (Ok Next, [VInt 1]) /\ go9 none (eliminate0 p) = (Ok Next, [VInt 0]).
Proof. exists [SLet 0 false true (num 0); SSet 0 (num 1); SEff 9 [EId 0]; SSet 0 (num 2)]. split; vm_compute; reflexivity. Qed.

(** The condition on removals, statement by statement. *)
Fixpoint tidy_steps (opaque clears unseen : nat -> bool) (p : list stmt) : Prop :=
  match p with [] => True | st :: r => match st with SSet x e => killed opaque clears unseen x r = true -> safe opaque x r | _ => True end /\ tidy_steps opaque clears unseen r end.
Lemma tidy_by_steps opaque clears unseen p : tidy_steps opaque clears unseen p -> tidy opaque clears unseen p.
Proof.
  intros T a x e m e' c -> _ A' N' Pm. assert (T2 : tidy_steps opaque clears unseen (SSet x e :: m ++ SSet x e' :: c)) by (revert T; clear; induction a as [| st a IH]; [auto | intros [_ T]; auto]). destruct T2 as [T1 T2]. specialize (T1 (killed_from opaque clears unseen x m e' c Pm A' N')). clear T a.
  revert T1 T2. induction Pm as [| st m [S R] Pm IH]; intros T1 T2; [constructor |]. cbn [app tidy_steps] in T2. destruct T2 as [T3 T4]. pose proof (killed_from opaque clears unseen x m e' c Pm A' N') as K. destruct st; cbn [app safe straight] in *; try contradiction.
  - destruct T1 as (Q1 & Q2 & Q3). constructor; [split; assumption | auto].
  - constructor; [exact S |]. destruct T1 as [-> | T1]; [apply IH; [apply T3, K | exact T4] | apply IH; [exact T1 | exact T4]].
  - destruct T1 as [Q1 Q2]. constructor; [exact Q1 | auto].
  - destruct T1 as (Q1 & Q2 & Q3). constructor; [split; assumption | auto].
Qed.
(** Let x be 0. Set x to 1. Let y be 5. Set x to y + 2. Show x. If true: Set y to 9. Otherwise: Show 0. While false: Show 1.
    If y > 3: Set x to 1. Set x to 2. Show x + y, and the result of function 7, which returns its parameter before showing it. *)
Definition ex_dead : list stmt :=
  [SLet 0 false true (num 0); SSet 0 (num 1); SLet 1 false true (num 5); SSet 0 (EBin Add (EId 1) (num 2)); SShow (EId 0); SIf (boolean true) [SSet 1 (num 9)] (Some [SShow (num 0)]); SWhile (boolean false) [SShow (num 1)];
   SIf (EBin Gt (EId 1) (num 3)) [SSet 0 (num 1); SSet 0 (num 2)] None; SShow (EBin Add (EId 0) (EOther 7 [EId 1]))].
Definition ex_fun (t : nat) : option func := if fn7 t then Some ([(2, false)], [SReturn (Some (EId 2)); SShow (EId 2)]) else None.
Example C81_example : eliminate0 ex_dead = [SLet 0 false true (num 0); SLet 1 false true (num 5); SSet 0 (EBin Add (EId 1) (num 2)); SShow (EId 0); SSet 1 (num 9); SIf (EBin Gt (EId 1) (num 3)) [SSet 0 (num 2)] None; SShow (EBin Add (EId 0) (EOther 7 [EId 1]))] /\
  option_map (dce_func op79 fn7 st9) (ex_fun 7) = Some ([(2, false)], [SReturn (Some (EId 2))]) /\ go9 ex_fun ex_dead = (Ok Next, [VInt 11; VInt 7]) /\
  tidy_block op79 fn7 st9 ex_dead /\ (forall t ps body, ex_fun t = Some (ps, body) -> tidy_block op79 fn7 st9 body) /\ (forall t, ex_fun t <> None -> op79 t = true /\ fn7 t = true) /\ (forall t vs w, op79 t = false -> snd (ext9 t vs w) = w).
Proof.
  split; [vm_compute; reflexivity |]. split; [vm_compute; reflexivity |]. split; [vm_compute; reflexivity |]. split; [| split; [| split]].
  - split; [apply tidy_by_steps; cbn; repeat split; auto; discriminate |]. cbn. repeat split; try (intros H; discriminate H); try (apply tidy_by_steps; cbn; repeat split; auto; discriminate); intros _; repeat constructor.
  - intros t ps body. unfold ex_fun. destruct (fn7 t); [| discriminate]. intros E. injection E as <- <-. split; [apply tidy_by_steps; cbn; repeat split; auto |]. cbn. auto.
  - intros t. unfold ex_fun, op79, fn7. destruct (Nat.eqb t 7); [auto | intros H; exfalso; apply H; reflexivity].
  - intros t vs w. unfold op79, ext9, st9. destruct (Nat.eqb t 9); [rewrite orb_true_r; discriminate | reflexivity].
Qed.
Example C81_inline_example : (forall x a m e, ~ In (SLet x a m e) [SSet 0 (num 9); SIf (EId 0) [SLet 1 false false (num 1)] None]) /\
  exists s', block (exec p0 list_items ext9 (fun v w => v :: w) none 20) [SSet 0 (num 9); SIf (EId 0) [SLet 1 false false (num 1)] None] (define start 0 (VInt 4)) = (Ok Next, s') /\ lookup s' 0 = Some (VInt 9).
Proof. split; [intros x a m e [H | [H | []]]; discriminate |]. eexists. split; [reflexivity | vm_compute; reflexivity]. Qed.
Example C81_stores_example : keeps op79 fn7 st9 ex_dead = [true; false; true; true; true; true; true; true; true] /\ nth_error ex_dead 1 = Some (SSet 0 (num 1)) /\ nth_error ex_dead 3 = Some (SSet 0 (EBin Add (EId 1) (num 2))).
Proof. repeat split. Qed.
