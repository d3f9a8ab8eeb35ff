(** C39: Horn satisfiability is decided correctly. *)
From Coq Require Import List Arith Bool Lia.
From stdpp Require Import list sets gmap.
From Verif Require Import HornModel HornProofs.

(** ** C39 *)

(** The solver always answers (no panic, no endless loop), for any clauses and variable count. *)
Theorem C39_answers cs n : exists o, h_solve cs n = Some o.
Proof. destruct (h_solve_ok n cs) as (o & E & _). eauto. Qed.

(** "Satisfiable" comes with a model of the clauses that passes the model check, and it is the
    least one: a variable true in it is true in every model. *)
Theorem C39_sat cs n v : bodies_in n cs -> heads_in n cs -> h_solve cs n = Some (HSat v) ->
  length v = n /\ h_satisfies cs v = true /\ horn_model (h_var_true v) cs /\
  forall f, horn_model f cs -> forall b, v !! b = Some true -> f b = true.
Proof.
  intros Bi Hi E. destruct (h_solve_ok n cs) as (o & E' & S). rewrite E in E'. injection E' as <-.
  destruct (sat_model n cs v S Bi Hi) as [L M]. split; [done|]. split; [now apply h_satisfies_iff|]. split; [done|].
  intros f Mf. exact (sat_least n cs v f S Bi Mf).
Qed.

(** "Unsatisfiable" is answered only if no assignment satisfies the clauses; then the listed
    clauses are unsatisfiable by themselves, and the certificate check accepts the list. *)
Theorem C39_unsat cs n d : bodies_in n cs -> heads_in n cs -> h_solve cs n = Some (HUnsat d) ->
  (~ exists f, horn_model f cs) /\ (forall f, ~ forall c, listed cs d c -> horn_true f c) /\ h_is_refutation cs n d = Some true.
Proof.
  intros Bi Hi E. destruct (h_solve_ok n cs) as (o & E' & S). rewrite E in E'. injection E' as <-.
  split; [intros [f M]; exact (unsat_no_model n cs d f S Bi M)|]. split; [intros f; apply (unsat_listed n cs d f S Bi)|].
  destruct (is_refutation_exact cs n d Hi) as (r & Er & Hr). rewrite Er. f_equal. apply Hr. split; [apply (unsat_listed n cs d (fun _ => true) S Bi)|].
  intros f. apply (unsat_listed n cs d f S Bi).
Qed.

(** Hence satisfiable instances are answered "satisfiable" and the others "unsatisfiable". *)
Theorem C39_decides cs n : bodies_in n cs -> heads_in n cs ->
  ((exists f, horn_model f cs) <-> exists v, h_solve cs n = Some (HSat v)) /\
  ((~ exists f, horn_model f cs) <-> exists d, h_solve cs n = Some (HUnsat d)).
Proof.
  intros Bi Hi. destruct (C39_answers cs n) as [[v|d] E].
  - destruct (C39_sat cs n v Bi Hi E) as (_ & _ & M & _). split; split; eauto.
    + intros H. exfalso. eauto.
    + intros [d E']. congruence.
  - destruct (C39_unsat cs n d Bi Hi E) as (M & _). split; split; eauto; [tauto|].
    intros [v E']. congruence.
Qed.

(** The certificate check is exact for any list of clause numbers: it accepts exactly the lists of
    existing clauses that have no common model. *)
Theorem C39_certificates cs n d : heads_in n cs ->
  exists r, h_is_refutation cs n d = Some r /\
    (r = true <-> (forall i, i ∈ d -> is_Some (cs !! i)) /\ forall f, ~ forall c, listed cs d c -> horn_true f c).
Proof. exact (is_refutation_exact cs n d). Qed.

(** The model check agrees with the meaning of the clauses (missing variables count as false). *)
Theorem C39_model_check cs a : h_satisfies cs a = true <-> horn_model (fun b => default false (a !! b)) cs.
Proof. exact (h_satisfies_iff cs a). Qed.

(** A body variable outside [0..num_vars] is ignored by the solver (so treated as true) but is
    false for the two checks: the solver calls a satisfiable instance unsatisfiable, and its own
    certificate is rejected. *)
Theorem C39_body_out_of_range_refuted : exists cs n d,
  h_solve cs n = Some (HUnsat d) /\ (exists f, horn_model f cs) /\ h_satisfies cs (replicate n false) = true /\ h_is_refutation cs n d = Some false.
Proof.
  exists [Horn [5] None], 1, [0]. split; [reflexivity|]. split; [|split; reflexivity]. exists (fun _ => false).
  intros c ->%elem_of_list_singleton H. specialize (H 5 (elem_of_list_here _ _)). discriminate.
Qed.
(** A head outside the range is ignored: the solver answers "satisfiable" with a model that the
    model check rejects. *)
Theorem C39_head_out_of_range_refuted : exists cs n v,
  h_solve cs n = Some (HSat v) /\ h_satisfies cs v = false.
Proof. exists [Horn [] (Some 5)], 1, [false]. split; reflexivity. Qed.

(** Facts 0, rule 0 -> 1, rule 1,1 -> 2, goal 2,3: satisfiable with least model {0,1,2}; with the
    goal 2 instead it is refuted by the four clauses. *)
Example C39_example :
  let rules := [Horn [] (Some 0); Horn [0] (Some 1); Horn [1; 1] (Some 2)] in
  bodies_in 4 (rules ++ [Horn [2; 3] None]) /\ heads_in 4 (rules ++ [Horn [2; 3] None]) /\
  h_solve (rules ++ [Horn [2; 3] None]) 4 = Some (HSat [true; true; true; false]) /\
  h_solve (rules ++ [Horn [2] None; Horn [] (Some 3)]) 4 = Some (HUnsat [3; 2; 1; 0]) /\
  h_is_refutation (rules ++ [Horn [2] None]) 4 [0; 1; 2; 3] = Some true /\
  h_is_refutation (rules ++ [Horn [2] None]) 4 [0; 2; 3] = Some false.
Proof.
  cbv zeta. repeat split; try (vm_compute; reflexivity).
  - intros c b Hc Hb. cbn in Hc. repeat (apply elem_of_cons in Hc as [->|Hc]; [cbn in Hb; repeat (apply elem_of_cons in Hb as [->|Hb]; [lia|]); now apply elem_of_nil in Hb|]). now apply elem_of_nil in Hc.
  - intros c h Hc Hh. cbn in Hc. repeat (apply elem_of_cons in Hc as [->|Hc]; [cbn in Hh; try discriminate; injection Hh as <-; lia|]). now apply elem_of_nil in Hc.
Qed.

Print Assumptions C39_answers.
Print Assumptions C39_sat.
Print Assumptions C39_unsat.
Print Assumptions C39_decides.
Print Assumptions C39_certificates.
Print Assumptions C39_model_check.
Print Assumptions C39_body_out_of_range_refuted.
Print Assumptions C39_head_out_of_range_refuted.
