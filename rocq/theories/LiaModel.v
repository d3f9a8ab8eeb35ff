(** Model of [crates/logicaffeine_kernel/src/lia.rs] and of the [lia] tactic of
    [crates/logicaffeine_kernel/src/reduction.rs]. Rationals are Coq's canonical rationals [Qc]:
    C27 and C28 show that the code's [Rational] computes exactly these values. *)
From Coq Require Import ZArith QArith Qcanon String List.
From stdpp Require Import gmap strings list sorting.
From Verif Require Import SynModel LinExprModel.
Local Open Scope string_scope.

Definition q_isz (x : Qc) : bool := Qc_eq_bool x (Q2Qc 0).
Definition q_pos (x : Qc) : bool := match (x ?= Q2Qc 0)%Qc with Gt => true | _ => false end.
Definition q_neg (x : Qc) : bool := match (x ?= Q2Qc 0)%Qc with Lt => true | _ => false end.
(** [Rational::from_i64]. *)
Definition q_of_Z (n : Z) : Qc := Q2Qc (inject_Z n).

(** lia.rs:31-129 at the rationals. *)
Definition qexpr := lexpr Qc.
Definition q_const : Qc -> qexpr := l_const.
Definition q_var : Z -> qexpr := l_var (Q2Qc 0) (Q2Qc 1).
Definition q_add : qexpr -> qexpr -> qexpr := l_add (Q2Qc 0) Qcplus q_isz.
Definition q_negate : qexpr -> qexpr := l_neg Qcopp.
Definition q_sub : qexpr -> qexpr -> qexpr := l_sub (Q2Qc 0) Qcplus Qcopp q_isz.
Definition q_scale : qexpr -> Qc -> qexpr := l_scale (Q2Qc 0) Qcmult q_isz.
Definition q_get : qexpr -> Z -> Qc := l_get (Q2Qc 0).
Definition reify_linear : stx -> interner -> option qexpr * interner :=
  reify_lin (Q2Qc 0) (Q2Qc 1) Qcplus Qcmult Qcopp q_isz q_of_Z.

(** lia.rs:136-143. *)
Record qcons := QC { qc_expr : qexpr; qc_strict : bool }.
(** lia.rs:147-157 [is_satisfied_constant]. *)
Definition is_satisfied_constant (c : qcons) : bool :=
  if negb (is_constant (qc_expr c)) then true
  else if qc_strict c then q_neg (lc (qc_expr c)) else negb (q_pos (lc (qc_expr c))).

(** lia.rs:269-303 [goal_to_negated_constraint]. *)
Definition negated_goal (rel : string) (lhs rhs : qexpr) : option qcons :=
  if (rel =? "Lt") || (rel =? "lt") then Some (QC (q_sub rhs lhs) false)
  else if (rel =? "Le") || (rel =? "le") then Some (QC (q_sub rhs lhs) true)
  else if (rel =? "Gt") || (rel =? "gt") then Some (QC (q_sub lhs rhs) false)
  else if (rel =? "Ge") || (rel =? "ge") then Some (QC (q_sub lhs rhs) true)
  else None.

(** lia.rs:374-393, the bound read off one constraint: [-rest/coeff]. *)
Definition bound_of (c : qcons) (v : Z) : qexpr :=
  q_scale (q_negate (l_remove (qc_expr c) v)) (/ q_get (qc_expr c) v)%Qc.
Definition independent (v : Z) (c : qcons) : bool := q_isz (q_get (qc_expr c) v).
Definition is_upper (v : Z) (c : qcons) : bool := negb (independent v c) && q_pos (q_get (qc_expr c) v).
Definition is_lower (v : Z) (c : qcons) : bool := negb (independent v c) && negb (q_pos (q_get (qc_expr c) v)).
(** lia.rs:367-408 [eliminate_variable]. *)
Definition eliminate (cs : list qcons) (v : Z) : list qcons :=
  List.filter (independent v) cs ++
  flat_map (fun lo => List.map (fun hi =>
      QC (q_sub (bound_of lo v) (bound_of hi v)) (qc_strict lo || qc_strict hi))
    (List.filter (is_upper v) cs)) (List.filter (is_lower v) cs).

(** lia.rs:331-339: the variables, sorted. *)
Definition all_vars (cs : list qcons) : list Z :=
  merge_sort Z.le (elements (union_list ((fun c => dom (D := gset Z) (lm (qc_expr c))) <$> cs))).
Definition contradiction (c : qcons) : bool := is_constant (qc_expr c) && negb (is_satisfied_constant c).
(** lia.rs:343-356, the elimination loop. *)
Fixpoint eliminate_all (vs : list Z) (cs : list qcons) : bool :=
  match vs with
  | [] => existsb (fun c => negb (is_satisfied_constant c)) cs
  | v :: vs => let cs := eliminate cs v in if existsb contradiction cs then true else eliminate_all vs cs
  end.
(** lia.rs:326-357 [fourier_motzkin_unsat]. *)
Definition fourier_motzkin_unsat (cs : list qcons) : bool :=
  match cs with [] => false | _ => eliminate_all (all_vars cs) cs end.

(** reduction.rs:2386-2418 [try_try_lia_reduce] and 2423-2451 [try_dlia_solve_conclude], on a
    normalised goal: both accept the goal exactly when this is true. *)
Definition lia_accepts (goal : term) : bool :=
  match extract_comparison goal with
  | Some (rel, l, r) =>
      match reify_linear (read l) in_new with
      | (Some lhs, st) =>
          match reify_linear (read r) st with
          | (Some rhs, _) =>
              match negated_goal rel lhs rhs with
              | Some c => fourier_motzkin_unsat [c]
              | None => false
              end
          | (None, _) => false
          end
      | (None, _) => false
      end
  | None => false
  end.
