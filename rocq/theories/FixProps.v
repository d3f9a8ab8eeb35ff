(** C104: the guard condition on fixpoints. What the calls that it lets through are made on, that the
    two kernels have the same guard, and closed proofs of False that both let through. *)
From Coq Require Import List Bool Arith Lia.
From stdpp Require Import base decidable list strings gmap.
From Verif Require Import SubstModel InferModel PosModel FixModel FixSem FixProofs.
Open Scope string_scope.

Notation ctx := (PosModel.context univ).
(** ** What is guaranteed *)
(** Run a body that the guard accepts, at arguments of which the one at the structural position [p] is a
    constructor with at least as many fields, its parameters not counted, as the type of the constructor has
    products. Then each call made through the recursive name, while the body runs or while what it returns is
    applied further, has at position [p] a field of that argument or something that such fields return when
    they are applied. The values of the calls are arbitrary. *)
Theorem C104_decreasing (c : ctx) (f : name) (body : term) x i p inner glob (result : list value -> value -> Prop) (e : env) args k fs (ty : term) v q r q' :
  check_termination c f body = true -> structural_param c body = Some (x, i, p, inner) ->
  (forall l, unmarked (glob l)) -> (forall l w, result l w -> unmarked w) ->
  Forall (fun b => unmarked (snd b)) e -> Forall unmarked args -> args !! p = Some (VData k fs) ->
  constructors _ c !! k = Some (i, ty) -> count_pis _ ty <= length (drop (params c k) fs) ->
  ev c p glob result ((f, VRec []) :: e) body v q -> aps c p glob result v args r q' ->
  Forall (part c p glob result (VData k fs)) (q ++ q').
Proof. apply activation. Qed.
(** If the argument is first-order data then each call is on one of its immediate fields, which is smaller:
    calls nest at most as deep as the argument is large. *)
Theorem C104_first_order (c : ctx) (f : name) (body : term) x i p inner glob (result : list value -> value -> Prop) (e : env) args k fs (ty : term) v q r q' w :
  check_termination c f body = true -> structural_param c body = Some (x, i, p, inner) ->
  (forall l, unmarked (glob l)) -> (forall l w, result l w -> unmarked w) ->
  Forall (fun b => unmarked (snd b)) e -> Forall unmarked args -> args !! p = Some (VData k fs) -> data c (VData k fs) ->
  constructors _ c !! k = Some (i, ty) -> params c k = 0 ->
  ev c p glob result ((f, VRec []) :: e) body v q -> aps c p glob result v args r q' ->
  In w (q ++ q') -> In w fs /\ data c w /\ size w < size (VData k fs).
Proof.
  intros Hc Hs Hg Hr He Ha Hp Hd Hk Hpar Hev Haps Hw.
  assert (Hf : count_pis _ ty <= length (drop (params c k) fs)). { inversion Hd as [? ? Hl _]; subst. unfold arity in Hl. rewrite Hk in Hl. rewrite Hpar. change (drop 0 fs) with fs. lia. }
  pose proof (activation c f body x i p inner glob result e args k fs ty v q r q' Hc Hs Hg Hr He Ha Hp Hk Hf Hev Haps) as Hq.
  rewrite List.Forall_forall in Hq. pose proof (data_part _ _ _ _ _ _ _ Hd (Hq w Hw)) as Hin. split; [exact Hin|]. split; [|apply size_field; exact Hin].
  inversion Hd as [? ? _ Hall]; subst. rewrite List.Forall_forall in Hall. exact (Hall w Hin).
Qed.
(** The guard of the second kernel, which works on levels, accepts the same fixpoints as the first, which works
    on names, when the names of the function and of its parameters differ and no match on the structural
    parameter has cases to spare. *)
Theorem C104_same (c : ctx) f s body b : to_db (f :: s) body = Some b -> List.NoDup (f :: map fst (fst (telescope body))) ->
  (forall x i p inner, structural_param c body = Some (x, i, p, inner) -> covered c x i inner) ->
  check_termination c f body = db_check_terminates c (length s) b.
Proof. apply same_guard. Qed.

(** ** What is not *)
Definition arrow (A B : term) : term := pi "_" A B.
Definition apps (f : term) (l : list term) : term := fold_left (fun f a => app f a) l f.
Definition prop : term := sort UProp.
Definition none : ctx := Context _ ∅ ∅ ∅ ∅ ∅ ∅.
(** The part of the prelude with Nat, True, False and And (prelude.rs 723-737, 1815-1880). *)
Definition prelude : ctx :=
  let c := add_inductive _ none "Nat" (sort (UType 0)) in
  let c := add_constructor _ c "Zero" "Nat" (G "Nat") in
  let c := add_constructor _ c "Succ" "Nat" (arrow (G "Nat") (G "Nat")) in
  let c := add_inductive _ c "True" prop in
  let c := add_constructor _ c "I" "True" (G "True") in
  let c := add_inductive _ c "False" prop in
  let c := add_inductive _ c "And" (arrow prop (arrow prop prop)) in
  add_constructor _ c "conj" "And" (pi "P" prop (pi "Q" prop (arrow (V "P") (arrow (V "Q") (apps (G "And") [V "P"; V "Q"]))))).
(** The Inductive command with the checks of constructors. *)
Definition declare (c : ctx) := inductive_command univ (fun c L A => a ← infer 30 c L A; as_sort a) uleq (fun u => bool_decide (u = UProp)) c.
Definition accepted_by_second (c : ctx) (t : term) : bool := match to_db [] t with Some (DFix b) => db_check_terminates c 0 b | _ => false end.
(** The kernel has a proof of False that goes on for ever. *)
Definition inconsistent (c : ctx) : Prop := exists n f a t steps, get_constructors _ c "False" = [] /\ t = apps f a /\ infer n c [] t = Some (G "False") /\ accepted_by_second c f = true /\
  0 < steps /\ forall k, Nat.iter (k * steps) (reduce_step n c) t = t.
Lemma iter_cycle {A} (f : A -> A) (t : A) n : Nat.iter n f t = t -> forall k, Nat.iter (k * n) f t = t.
Proof. intros H k. induction k as [|k IH]; [reflexivity|]. cbn [Nat.mul]. unfold Nat.iter in *. rewrite nat_rect_plus. rewrite IH. exact H. Qed.

(** Cases of a match bind the fields of a constructor but not its parameters, while the guard takes as many
    leading lambdas of a case for fields as the constructor has parameters and fields together: in a case that
    returns a function, the arguments of that function count as smaller. *)
Definition TT : term := apps (G "And") [G "True"; G "True"].
Definition tt_proof : term := apps (G "conj") [G "True"; G "True"; G "I"; G "I"].
Definition loop : term :=
  fixp "f" (lam "h" TT (matches (V "h") (lam "_" TT (arrow TT (G "False"))) [lam "p" (G "True") (lam "q" (G "True") (lam "z" TT (apps (V "f") [V "z"; V "z"])))])).
Theorem C104_params_refuted : inconsistent prelude.
Proof.
  exists 40, loop, [tt_proof; tt_proof], (apps loop [tt_proof; tt_proof]), 5. repeat (split; [first [vm_compute; reflexivity|lia]|]). apply iter_cycle. vm_compute. reflexivity.
Qed.
(** What a field returns when it is applied counts as smaller; that is wrong of a field of a type like
    [forall A : Prop, A -> A], which strict positivity lets through. *)
Definition ID : term := pi "A" prop (arrow (V "A") (V "A")).
Definition D : list (name * term) := [("c", arrow ID (G "D"))].
Definition loop_id : term := fixp "f" (lam "n" (G "D") (matches (V "n") (lam "_" (G "D") (G "False")) [lam "h" ID (app (V "f") (apps (V "h") [G "D"; V "n"]))])).
Theorem C104_poly_refuted : exists c, declare prelude "D" prop D = (c, true) /\ inconsistent c.
Proof.
  eexists. split; [vm_compute; reflexivity|]. exists 40, loop_id, [app (G "c") (lam "A" prop (lam "x" (V "A") (V "x")))].
  eexists. exists 5. split; [vm_compute; reflexivity|]. split; [reflexivity|]. split; [vm_compute; reflexivity|]. split; [vm_compute; reflexivity|]. split; [lia|]. apply iter_cycle. vm_compute. reflexivity.
Qed.
(** Leading sort-typed arguments of a constructor are taken for parameters by reduction, whether the inductive
    has parameters or not: a closed term of type Prop reduces to a function. *)
Definition unbox : term := matches (app (G "box") (G "True")) (lam "_" (G "Box") prop) [lam "A" prop (V "A")].
Theorem C104_box_refuted : exists c, declare prelude "Box" (sort (UType 1)) [("box", arrow prop (G "Box"))] = (c, true) /\
  infer 40 c [] unbox = Some prop /\ normalize 40 c unbox = lam "A" prop (V "A") /\ infer 40 c [] (normalize 40 c unbox) = Some (pi "A" prop prop).
Proof. eexists. split; [vm_compute; reflexivity|]. repeat split; vm_compute; reflexivity. Qed.
(** The types of the binders of a case on the structural parameter are not looked at: here one of them calls the
    function on the structural parameter itself. *)
Definition annotated : term := fixp "f" (lam "n" (G "Nat") (matches (V "n") (lam "_" (G "Nat") prop) [G "True"; lam "k" (app (lam "_" prop (G "Nat")) (app (V "f") (V "n"))) (G "True")])).
Theorem C104_annotation_refuted : infer 40 prelude [] annotated = Some (pi "n" (G "Nat") prop) /\ accepted_by_second prelude annotated = true.
Proof. split; vm_compute; reflexivity. Qed.
(** The two guards differ when a parameter is shadowed by a later one: the first looks up the scrutinee by name
    and finds the outer parameter. *)
Definition twice : term := lam "n" (G "Nat") (lam "n" (G "Nat") (matches (V "n") (lam "_" (G "Nat") (G "Nat")) [G "Zero"; lam "k" (G "Nat") (apps (V "f") [G "Zero"; V "k"])])).
Theorem C104_shadow_refuted : exists b, to_db ["f"] twice = Some b /\ db_check_terminates prelude 0 b = true /\ check_termination prelude "f" twice = false.
Proof. eexists. split; [vm_compute; reflexivity|]. split; vm_compute; reflexivity. Qed.

(** ** Examples *)
Definition plus : term := lam "n" (G "Nat") (lam "m" (G "Nat") (matches (V "n") (G "Nat") [V "m"; lam "k" (G "Nat") (app (G "Succ") (apps (V "f") [V "k"; V "m"]))])).
Example C104_plus_ex : infer 40 prelude [] (fixp "f" plus) = Some (pi "n" (G "Nat") (pi "m" (G "Nat") (G "Nat"))) /\ structural_param prelude plus = Some ("n", "Nat", 0, skip_lams 1 plus) /\ accepted_by_second prelude (fixp "f" plus) = true.
Proof. repeat split; vm_compute; reflexivity. Qed.
(** Calls that do not go down are refused: on the parameter itself, on a let-bound copy of a field, without an argument, and in the place of an argument. *)
Definition with_succ (t : term) : term := lam "n" (G "Nat") (matches (V "n") (G "Nat") [G "Zero"; lam "k" (G "Nat") t]).
Example C104_refused_ex : check_termination prelude "f" (with_succ (app (V "f") (V "k"))) = true /\ check_termination prelude "f" (with_succ (app (V "f") (V "n"))) = false /\
  check_termination prelude "f" (with_succ (TBind _ BLet [G "Nat"; V "k"] "j" (app (V "f") (V "j")))) = false /\ check_termination prelude "f" (with_succ (V "f")) = false /\
  check_termination prelude "f" (with_succ (app (lam "g" (arrow (G "Nat") (G "Nat")) (app (V "g") (V "n"))) (V "f"))) = false /\ check_termination prelude "f" (with_succ (app (V "f") (app (G "Succ") (V "k")))) = false.
Proof. repeat split; vm_compute; reflexivity. Qed.
(** Adding one to two calls once, on one. *)
Definition glob (l : FixModel.leaf) : value := match l with LGlobal _ g => VData g [] | _ => VJunk end.
Definition num (n : nat) : value := Nat.iter n (fun v => VData "Succ" [v]) (VData "Zero" []).
Definition sums (l : list value) (w : value) : Prop := l = [num 1] /\ w = VClo [] "m" (app (G "Succ") (V "m")).
Example C104_run_ex : exists v, ev prelude 0 glob sums [("f", VRec [])] plus v [] /\ aps prelude 0 glob sums v [num 2; num 1] (num 3) [num 1].
Proof.
  eexists. split; [apply ev_lam|]. eapply (aps_cons _ _ _ _ _ _ _ _ _ [] [num 1]); [apply ap_clo, ev_lam|]. eapply (aps_cons _ _ _ _ _ _ _ _ _ [num 1] []); [|apply aps_nil].
  apply ap_clo. eapply (ev_match _ _ _ _ _ _ _ _ "Succ" _ _ _ _ [] [] [num 1]); [apply ev_var; reflexivity|vm_compute; reflexivity|apply ev_lam|]. change (drop (params prelude "Succ") [num 1]) with [num 1].
  eapply (aps_cons _ _ _ _ _ _ _ _ _ [num 1] []); [|apply aps_nil]. apply ap_clo. eapply (ev_app _ _ _ _ _ _ _ _ _ _ [] [num 1] []); [apply ev_leaf| |].
  - eapply (ev_app _ _ _ _ _ _ _ _ _ _ [num 1] [] []); [|apply ev_var; reflexivity|].
    + eapply (ev_app _ _ _ _ _ _ _ _ _ _ [] [] [num 1]); [apply ev_var; reflexivity|apply ev_var; reflexivity|]. apply ap_call; [reflexivity|split; reflexivity].
    + apply ap_clo. eapply (ev_app _ _ _ _ _ _ _ _ _ _ [] [] []); [apply ev_leaf|apply ev_var; reflexivity|]. apply ap_data. vm_compute. lia.
  - apply ap_data. vm_compute. lia.
Qed.
Example C104_hypotheses_ex : data prelude (num 2) /\ params prelude "Succ" = 0 /\ (forall l, unmarked (glob l)) /\ (forall l w, sums l w -> unmarked w) /\ covered prelude "n" "Nat" (skip_lams 1 plus).
Proof.
  split; [repeat (constructor; try reflexivity)|]. split; [vm_compute; reflexivity|]. split; [intros [u|g]; repeat constructor|]. split; [intros l w [_ ->]; repeat constructor|].
  change (skip_lams 1 plus) with (lam "m" (G "Nat") (matches (V "n") (G "Nat") [V "m"; lam "k" (G "Nat") (app (G "Succ") (apps (V "f") [V "k"; V "m"]))])).
  unfold apps. cbn [fold_left]. apply cv_bind; [intros t [<-|[]]; constructor|]. apply cv_match; [constructor|constructor| |intros _; vm_compute; lia].
  intros t [<-|[<-|[]]]; [constructor|]. apply cv_bind; [intros t [<-|[]]; constructor|]. repeat constructor.
Qed.
