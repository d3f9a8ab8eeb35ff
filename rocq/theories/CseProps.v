(** C100: inlining of one-expression helpers and common subexpression
    elimination keep what a function returns -- and where they do not. *)

From Coq Require Import ZArith List Bool Lia.
From Verif Require Import SymModel SymProofs CseModel CseProofs CseSim.
Import ListNotations.
Open Scope Z_scope.

(** ** Inlining *)

(** Whatever a call returned in the program as written, it returns in the
    program with its helpers inlined. *)
Theorem C100_inline : forall p g vs v,
  NoDup (map f_name p) ->
  returns p g vs v -> returns (inline_tiny p) g vs v.
Proof.
  intros p g vs v Hnd [f Hf]. unfold inline_tiny.
  destruct (catalogue p) as [|c cs] eqn:Hc; [now exists f|]. rewrite <- Hc.
  destruct (inline_sim p Hnd f) as (_ & _ & H & _). exact (H g vs v Hf).
Qed.

Definition fn (name : symbol) (ps : list symbol) (b : list stmt) : func :=
  Func name ps b false false false false.

(** [sq a] returns [a * a]; [main x] sums [sq i] for [i] below [x]. *)
Definition sq_prog : program :=
  [fn 1 [10] [SReturn (Some (EBin Multiply (EId 10) (EId 10)))];
   fn 2 [20]
     [SLet 21 (ENum 0); SLet 22 (ENum 0);
      SWhile (EBin Lt (EId 22) (EId 20))
        [SSet 21 (EBin Add (EId 21) (ECall 1 [EId 22])); SSet 22 (EBin Add (EId 22) (ENum 1))];
      SReturn (Some (EId 21))]]%nat.

Example C100_inline_example :
  NoDup (map f_name sq_prog) /\ returns sq_prog 2%nat [VInt 5] (VInt 30) /\
  returns (inline_tiny sq_prog) 2%nat [VInt 5] (VInt 30) /\
  nth_error (map f_body (inline_tiny sq_prog)) 1%nat =
    Some [SLet 21 (ENum 0); SLet 22 (ENum 0);
          SWhile (EBin Lt (EId 22) (EId 20))
            [SSet 21 (EBin Add (EId 21) (EBin Multiply (EId 22) (EId 22)));
             SSet 22 (EBin Add (EId 22) (ENum 1))];
          SReturn (Some (EId 21))]%nat.
Proof.
  repeat split.
  - repeat constructor; cbn; intuition discriminate.
  - exists 60%nat. reflexivity.
  - exists 60%nat. reflexivity.
Qed.

(** The converse fails: a helper that names something other than its
    parameters fails when called, and picks up the caller's variable once
    inlined. *)
Theorem C100_capture_refuted : exists p g vs v,
  NoDup (map f_name p) /\
  returns (inline_tiny p) g vs v /\ forall w, ~ returns p g vs w.
Proof.
  exists [fn 1 [10] [SReturn (Some (EBin Add (EId 10) (EId 20)))];
          fn 2 [20] [SReturn (Some (ECall 1 [ENum 1]))]]%nat, 2%nat, [VInt 5], (VInt 6).
  split; [repeat constructor; cbn; intuition discriminate|].
  split; [exists 20%nat; reflexivity|].
  intros w [f Hf]. apply (up_call _ f (60 + f)) in Hf; [|lia]. vm_compute in Hf. discriminate.
Qed.

(** Nor is an argument the helper does not use looked at any more. *)
Theorem C100_unused_refuted : exists p g vs v,
  NoDup (map f_name p) /\
  returns (inline_tiny p) g vs v /\ forall w, ~ returns p g vs w.
Proof.
  exists [fn 1 [10] [SReturn (Some (ENum 7))];
          fn 2 [20] [SReturn (Some (ECall 1 [EId 99]))]]%nat, 2%nat, [VInt 5], (VInt 7).
  split; [repeat constructor; cbn; intuition discriminate|].
  split; [exists 20%nat; reflexivity|].
  intros w [f Hf]. apply (up_call _ f (60 + f)) in Hf; [|lia]. vm_compute in Hf. discriminate.
Qed.

(** ** Common subexpressions *)

(** For programs whose functions have no loop, no short-circuit operator in a
    declared value, declare each name once and never assign a variable that
    was declared with a computed value, the rewritten program returns what the
    original returned. *)
Theorem C100_cse : forall p g vs v,
  Forall (fun f => tame_func f = true) p ->
  returns p g vs v -> returns (cse p) g vs v.
Proof. intros p g vs v Hp [f Hf]. exact (cse_sim p Hp f g vs v Hf). Qed.

(** [d = x*x + x*x]; one branch assigns [x], so [x*x] is computed afresh
    afterwards. *)
Definition cse_prog : program :=
  [fn 1 [10; 11]
     [SLet 12 (EBin Add (EBin Multiply (EId 10) (EId 10)) (EBin Multiply (EId 10) (EId 10)));
      SLet 13 (EBin Multiply (EId 10) (EId 10));
      SLet 16 (EBin Add (EId 11) (EId 11));
      SIf (EBin Lt (EId 10) (EId 11))
        [SSet 10 (EBin Add (EId 10) (ENum 1)); SLet 14 (EBin Add (EId 11) (EId 11))]
        (Some [SLet 14 (EBin Multiply (EId 10) (EId 10))]);
      SLet 15 (EBin Multiply (EId 10) (EId 10));
      SReturn (Some (EBin Add (EBin Add (EId 12) (EId 13)) (EBin Add (EId 14) (EId 15))))]]%nat.

Example C100_cse_example :
  Forall (fun f => tame_func f = true) cse_prog /\
  returns cse_prog 1%nat [VInt 3; VInt 5] (VInt 53) /\
  returns (cse cse_prog) 1%nat [VInt 3; VInt 5] (VInt 53) /\
  map f_body (cse cse_prog) =
    [[SLet 1000 (EBin Multiply (EId 10) (EId 10));
      SLet 12 (EBin Add (EId 1000) (EId 1000));
      SLet 13 (EId 1000);
      SLet 16 (EBin Add (EId 11) (EId 11));
      SIf (EBin Lt (EId 10) (EId 11))
        [SSet 10 (EBin Add (EId 10) (ENum 1)); SLet 14 (EId 16)]
        (Some [SLet 14 (EId 13)]);
      SLet 15 (EBin Multiply (EId 10) (EId 10));
      SReturn (Some (EBin Add (EBin Add (EId 12) (EId 13)) (EBin Add (EId 14) (EId 15))))]]%nat.
Proof.
  split; [repeat constructor|]. split; [exists 60%nat; reflexivity|].
  split; [exists 60%nat; reflexivity|]. vm_compute. reflexivity.
Qed.

(** Names, functions and parameters are kept. *)
Theorem C100_frame : forall p,
  map (fun f => (f_name f, f_params f)) (cse p) = map (fun f => (f_name f, f_params f)) p /\
  map (fun f => (f_name f, f_params f)) (inline_tiny p) = map (fun f => (f_name f, f_params f)) p.
Proof.
  intros p. split.
  - unfold cse. generalize 0%nat. induction p as [|f p IH]; intros n; [reflexivity|].
    cbn [cse_funcs]. destruct (cse_block _ _) as [b s]. cbn [map with_body f_name f_params].
    now rewrite IH.
  - unfold inline_tiny. destruct (catalogue p); [reflexivity|]. rewrite map_map. reflexivity.
Qed.

Local Notation x := 10%nat.
Local Notation y := 11%nat.
Local Notation a := 12%nat.
Local Notation b := 13%nat.
Local Notation s := 14%nat.

(** Each restriction is needed.  Assigning the variable that holds a cached
    value leaves it in the cache. *)
Theorem C100_assigned_refuted : exists p g vs v w,
  returns p g vs v /\ returns (cse p) g vs w /\ v <> w.
Proof.
  exists [fn 1%nat [x; y]
            [SLet a (EBin Add (EId x) (EId y)); SSet a (ENum 0);
             SLet b (EBin Add (EId x) (EId y)); SReturn (Some (EId b))]],
         1%nat, [VInt 2; VInt 3], (VInt 5), (VInt 0).
  split; [exists 60%nat; reflexivity|]. split; [exists 60%nat; reflexivity|discriminate].
Qed.

(** A loop body is rewritten with values computed before the loop, whatever
    the loop assigns. *)
Theorem C100_loop_refuted : exists p g vs v w,
  returns p g vs v /\ returns (cse p) g vs w /\ v <> w.
Proof.
  exists [fn 1%nat [x; y]
            [SLet a (EBin Add (EId x) (ENum 1)); SLet s (ENum 0);
             SWhile (EBin Lt (EId x) (EId y))
               [SLet b (EBin Add (EId x) (ENum 1)); SSet s (EBin Add (EId s) (EId b));
                SSet x (EBin Add (EId x) (ENum 1))];
             SReturn (Some (EId s))]],
         1%nat, [VInt 0; VInt 3], (VInt 6), (VInt 3).
  split; [exists 60%nat; reflexivity|]. split; [exists 60%nat; reflexivity|discriminate].
Qed.

(** Declaring a name again does not drop the values that depended on it. *)
Theorem C100_redeclared_refuted : exists p g vs v w,
  returns p g vs v /\ returns (cse p) g vs w /\ v <> w.
Proof.
  exists [fn 1%nat [x]
            [SLet x (EBin Add (EId x) (ENum 1)); SLet b (EBin Add (EId x) (ENum 1));
             SReturn (Some (EId b))]],
         1%nat, [VInt 0], (VInt 2), (VInt 1).
  split; [exists 60%nat; reflexivity|]. split; [exists 60%nat; reflexivity|discriminate].
Qed.

(** Hoisting takes a computation out from behind its guard: a function that
    returned false now fails on a remainder by zero. *)
Theorem C100_guard_refuted : exists p g vs v,
  returns p g vs v /\ forall w, ~ returns (cse p) g vs w.
Proof.
  exists [fn 1%nat [x]
            [SLet a (EBin And (EBin NotEq (EId x) (ENum 0))
                       (EBin Or (EBin Lt (EBin Modulo (ENum 10) (EId x)) (ENum 3))
                                (EBin Gt (EBin Modulo (ENum 10) (EId x)) (ENum 5))));
             SReturn (Some (EId a))]],
         1%nat, [VInt 0], (VBool false).
  split; [exists 60%nat; reflexivity|].
  intros w [f Hf]. apply (up_call _ f (60 + f)) in Hf; [|lia]. vm_compute in Hf. discriminate.
Qed.
