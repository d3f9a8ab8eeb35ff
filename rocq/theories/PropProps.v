(** C82: constant propagation. *)
From Coq Require Import ZArith List Bool Lia.
From Verif Require Import MachInt FoldModel FoldProofs FoldMain FoldProps FoldStmtModel FoldStmtProofs FoldStmtProps PropModel PropFrame PropProofs.
Import ListNotations.

(** A program and its functions, with constants propagated, run as before (same result, variables and output, at every
    depth), when the execution is regular, no name is bound again in its own scope or a nested one, and no function sets
    a variable of the main program. *)
Theorem C82_propagate {W : Type} P items ext (show : value -> W -> W) sealed opens F n p (s : state W) : (forall t, display P (VText t) = t) ->
  no_shadow [] p -> (forall t ps body, F t = Some (ps, body) -> no_shadow [] body) ->
  (forall x t ps body, In x (binders p) -> F t = Some (ps, body) -> ~ In x (set_targets body)) ->
  frames s = [] -> (saves s = [] -> forall x, main_block s x = None) ->
  reg P items ext show (fun _ _ _ => false) F n (fun _ => false) p s ->
  exec P items ext show (fun t => option_map (propagate_func sealed opens) (F t)) n (propagate_stmts sealed opens p) s = exec P items ext show F n p s.
Proof.
  intros D Np Nf Nb Fr Rt R. assert (I : in_function s = false) by (unfold in_function; rewrite Fr; reflexivity). apply (prop_main P items ext show sealed opens F D Nf n (set_targets p) no_env [] p s); [| exact R].
  split; [auto |]. split; [discriminate |]. split; [apply inv_none |]. split; [intros _; exact Rt |]. split; [exact Np |]. split; [congruence |]. intros _ x Ix (t & ps & body & E & J). apply (Nb x t ps body Ix E J).
Qed.
(** What an execution does not name it does not change: outside a function, a variable that is neither bound nor set by
    the program, and not set by a function, keeps its value. *)
Theorem C82_untouched {W : Type} P items ext (show : value -> W -> W) F n p (s : state W) fl s' x : exec P items ext show F n p s = (Ok fl, s') -> frames s = [] ->
  ~ In x (binders p) -> ~ In x (set_targets p) -> (forall t ps body, F t = Some (ps, body) -> ~ In x (set_targets body)) -> lookup s' x = lookup s x.
Proof.
  intros E Fr Nb Ns Nf. assert (I : in_function s = false) by (unfold in_function; rewrite Fr; reflexivity). pose proof (exec_kept P items ext show F n p s fl s' ltac:(congruence) E) as [K1 _ _ K2 K3 _]. rewrite !lookup_upper.
  assert (Nn : ~ In x (names p)) by (intros J; apply in_app_iff in J as [J | J]; contradiction). rewrite (K2 x Nn), K3; [reflexivity | | right; exact Nn]. intros (t & ps & body & Ef & J). apply (Nf t ps body Ef J).
Qed.
(** A block leaves the enclosing blocks as they were: the same names are defined after it. *)
Theorem C82_block {W : Type} P items ext (show : value -> W -> W) F n b (s : state W) fl s' : frames s = [] -> block (exec P items ext show F n) b s = (Ok fl, s') ->
  saves s' = saves s /\ frames s' = frames s /\ forall x, main_block s' x = None <-> main_block s x = None.
Proof.
  intros Fr E. assert (I : in_function s = false) by (unfold in_function; rewrite Fr; reflexivity). unfold block in E. apply bind_ok in E as (g & s2 & E & E2). injection E2 as <- <-.
  pose proof (exec_kept P items ext show F n b (push_scope s) g s2 ltac:(intros J; unfold in_function in J; cbn in J; rewrite Fr in J; discriminate) E) as K. destruct (kept_block F (names b) s s2 K) as [K2 K3]. split; [exact K3 |]. split; [apply (k_frames _ _ _ _ K2) |].
  pose proof (k_saves _ _ _ _ K) as (e & S1 & _ & Sn). rewrite app_nil_r in S1. unfold upper in Sn. assert (I2 : in_function s2 = false) by (rewrite (in_function_frames _ _ (k_frames _ _ _ _ K)); exact I). rewrite I2 in Sn. change (in_function (push_scope s)) with (in_function s) in Sn. rewrite I in Sn. intros x. unfold pop_scope. rewrite S1, I2. apply Sn.
Qed.

(** ** What the conditions exclude *)
Definition none_sealed (t : nat) : bool := false.
Definition all_open (t i : nat) : bool := true.
Definition propagate0 (p : list stmt) : list stmt := propagate_stmts none_sealed all_open p.
(** Let x be 5. Repeat for x in [1, 2]: Show x. It shows 1 and 2; with constants propagated it shows 5 twice. *)
Theorem C82_loop_refuted : exists p, go (fun _ => None) p = (Ok Next, [VInt 2; VInt 1]) /\ go (fun _ => None) (propagate0 p) = (Ok Next, [VInt 5; VInt 5]).
Proof. exists [SLet 0 false false (num 5); SRepeat 0 (EOther 0 [num 1; num 2]) [SShow (EId 0)]]. split; vm_compute; reflexivity. Qed.
(** Let x be 5. Let x be x + y, where y is mutable and 1. Show x. It shows 6; with constants propagated it shows 5. *)
Theorem C82_rebound_refuted : exists p, go (fun _ => None) p = (Ok Next, [VInt 6]) /\ go (fun _ => None) (propagate0 p) = (Ok Next, [VInt 5]).
Proof. exists [SLet 1 false true (num 1); SLet 0 false false (num 5); SLet 0 false false (EBin Add (EId 0) (EId 1)); SShow (EId 0)]. split; vm_compute; reflexivity. Qed.
(** A function sets x to 6 after main has let it be 5. *)
Theorem C82_function_refuted : exists F p, go F p = (Ok Next, [VInt 6]) /\ go (fun t => option_map (propagate_func none_sealed all_open) (F t)) (propagate0 p) = (Ok Next, [VInt 5]).
Proof. exists (fun t => if Nat.eqb t 7 then Some ([], [SSet 0 (num 6)]) else None), [SLet 0 false false (num 5); SEff 7 []; SShow (EId 0)]. split; vm_compute; reflexivity. Qed.

(** Let n be 3. Let k be n * 4. If k > 5: Let d be k - n. Show d. The function 7 shows its parameter times two. *)
Definition ex_constants : list stmt :=
  [SLet 0 false false (num 3); SLet 1 false false (EBin Multiply (EId 0) (num 4)); SIf (EBin Gt (EId 1) (num 5)) [SLet 2 false false (EBin Subtract (EId 1) (EId 0)); SShow (EId 2)] None; SEff 7 [EId 1]].
Definition ex_functions (t : nat) : option func := if Nat.eqb t 7 then Some ([(3%nat, false)], [SLet 4 false false (num 2); SShow (EBin Multiply (EId 3) (EId 4))]) else None.
Example C82_example : propagate0 ex_constants = [SLet 0 false false (num 3); SLet 1 false false (num 12); SIf (boolean true) [SLet 2 false false (num 9); SShow (num 9)] None; SEff 7 [num 12]] /\
  no_shadow [] ex_constants /\ (forall t ps body, ex_functions t = Some (ps, body) -> no_shadow [] body) /\
  (forall x t ps body, In x (binders ex_constants) -> ex_functions t = Some (ps, body) -> ~ In x (set_targets body)) /\
  reg p0 list_items ext0 (fun v w => v :: w) (fun _ _ _ => false) ex_functions 12 (fun _ => false) ex_constants start /\
  go ex_functions ex_constants = (Ok Next, [VInt 24; VInt 9]).
Proof.
  split; [vm_compute; reflexivity |]. split; [cbn; intuition lia |]. assert (Fx : forall t ps body, ex_functions t = Some (ps, body) -> ps = [(3%nat, false)] /\ body = [SLet 4 false false (num 2); SShow (EBin Multiply (EId 3) (EId 4))]) by (unfold ex_functions; intros t ps body; destruct (Nat.eqb t 7); [intros E; injection E as <- <-; auto | discriminate]).
  split; [intros t ps body E; destruct (Fx t ps body E) as [_ ->]; cbn; intuition lia |]. split; [intros x t ps body _ E; destruct (Fx t ps body E) as [_ ->]; cbn; auto |]. split; [| vm_compute; reflexivity].
  assert (G : forall v w, regular_op p0 Gt (VInt v) (VInt w)) by (intros v w; split; [intros [] |]; split; [discriminate |]; split; [discriminate |]; intros _; discriminate).
  cbn [ex_constants reg]. split; [split; [exact Logic.I | discriminate] |]. intros s1 E. known. split.
  { split; [| discriminate]. cbn [regular]. split; [eexists; split; [reflexivity | discriminate] |]. intros v s1 E. split; [exact Logic.I |]. intros w s2 E2. known. known. plain. }
  intros s1 E. known. split.
  { split.
    - cbn [regular]. split; [eexists; split; [reflexivity | discriminate] |]. intros v s1 E. split; [exact Logic.I |]. intros w s2 E2. known. known. apply G.
    - intros v s1 E. known. cbn [truthy]. split.
      + split; [| discriminate]. cbn [regular]. split; [eexists; split; [reflexivity | discriminate] |]. intros v s1 E. known. split; [eexists; split; [reflexivity | discriminate] |]. intros w s2 E2. known. split; [intros _; left; split; cbn; unfold is_i64; lia |]. split; [intros _ [H _]; discriminate |]. split; [discriminate |]. intros _. vm_compute. discriminate.
      + intros s1 E. known. cbn [reg]. split; [| intros s1 E; exact Logic.I]. eexists; split; [reflexivity | discriminate]. }
  intros s1 E. known. split; [| intros s1 E; exact Logic.I]. split; [split; [eexists; split; [reflexivity | discriminate] |]; intros v s1 E; exact Logic.I |].
  intros vs s1 E. known. cbn [reg_call ex_functions Nat.eqb]. intros _. cbn [reg]. split; [split; [exact Logic.I | discriminate] |]. intros s1 E. known. cbn [reg]. split; [| intros s1 E; exact Logic.I].
  cbn [reg_stmt regular]. split; [eexists; split; [reflexivity | discriminate] |]. intros v s1 E. known. split; [eexists; split; [reflexivity | discriminate] |]. intros w s2 E2. known. plain.
Qed.
Example C82_untouched_example : exec p0 list_items ext0 (fun v w => v :: w) ex_functions 12 ex_constants (State (fun x => if Nat.eqb x 9 then Some (VInt 1) else None) (fun _ => None) (fun _ => None) [] [] []) <> (Stop, start) /\ ~ In 9%nat (binders ex_constants) /\ ~ In 9%nat (set_targets ex_constants).
Proof. split; [vm_compute; discriminate |]. split; cbn; intuition lia. Qed.
Example C82_block_example : exists s', block (exec p0 list_items ext0 (fun v w => v :: w) ex_functions 12) ex_constants start = (Ok Next, s') /\ world s' = [VInt 24; VInt 9].
Proof. eexists. split; [vm_compute; reflexivity | reflexivity]. Qed.
