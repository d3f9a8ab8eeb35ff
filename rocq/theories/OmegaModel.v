(** Model of [crates/logicaffeine_kernel/src/omega.rs] and of the [omega] tactic of
    [crates/logicaffeine_kernel/src/reduction.rs]. [BigInt] is [Z] (C26 shows that the code's
    [BigInt] computes exactly). *)
From Coq Require Import ZArith String List.
From stdpp Require Import gmap strings list.
From Verif Require Import SynModel LinExprModel.
Local Open Scope Z_scope.
Local Open Scope string_scope.
Local Open Scope list_scope.

(** omega.rs:47-130 at the integers. *)
Definition z_isz (x : Z) : bool := Z.eqb x 0.
Definition zexpr := lexpr Z.
Definition z_const : Z -> zexpr := l_const.
Definition z_var : Z -> zexpr := l_var 0 1.
Definition z_add : zexpr -> zexpr -> zexpr := l_add 0 Z.add z_isz.
Definition z_negate : zexpr -> zexpr := l_neg Z.opp.
Definition z_sub : zexpr -> zexpr -> zexpr := l_sub 0 Z.add Z.opp z_isz.
Definition z_scale : zexpr -> Z -> zexpr := l_scale 0 Z.mul z_isz.
Definition z_get : zexpr -> Z -> Z := l_get 0.
Definition reify_int_linear : stx -> interner -> option zexpr * interner := reify_lin 0 1 Z.add Z.mul Z.opp z_isz id.

(** omega.rs:136-143. *)
Record zcons := ZC { zc_expr : zexpr; zc_strict : bool }.
(** omega.rs:146-157 [is_satisfied_constant]. *)
Definition z_satisfied (c : zcons) : bool :=
  if negb (is_constant (zc_expr c)) then true
  else if zc_strict c then Z.ltb (lc (zc_expr c)) 0 else negb (Z.ltb 0 (lc (zc_expr c))).
(** omega.rs:159-176 [normalize], 178-190 [gcd], [exact_div]: the greatest common divisor of all the
    non-zero coefficients and the constant; Euclid's recursion is [Z.gcd], truncated division is
    [Z.quot]. The coefficients are folded in the map's order. *)
Definition coeff_gcd (e : zexpr) : Z :=
  fold_left (fun a b => Z.gcd a (Z.abs b))
    (List.filter (fun x => negb (Z.eqb x 0)) ((map_to_list (lm e)).*2 ++ [lc e])) 0.
Definition normalize (c : zcons) : zcons :=
  let g := coeff_gcd (zc_expr c) in
  if Z.ltb 1 g then ZC (LE (Z.quot (lc (zc_expr c)) g) ((fun x => Z.quot x g) <$> lm (zc_expr c))) (zc_strict c) else c.

(** omega.rs:278-327 [goal_to_negated_constraint]. *)
Definition z_negated_goal (rel : string) (lhs rhs : zexpr) : option zcons :=
  if (rel =? "Lt") || (rel =? "lt") then Some (ZC (z_sub rhs lhs) false)
  else if (rel =? "Le") || (rel =? "le") then Some (ZC (z_add (z_sub rhs lhs) (z_const 1)) false)
  else if (rel =? "Gt") || (rel =? "gt") then Some (ZC (z_sub lhs rhs) false)
  else if (rel =? "Ge") || (rel =? "ge") then Some (ZC (z_add (z_sub lhs rhs) (z_const 1)) false)
  else None.

Definition z_independent (v : Z) (c : zcons) : bool := z_isz (z_get (zc_expr c) v).
Definition z_upper (v : Z) (c : zcons) : bool := negb (z_independent v c) && Z.ltb 0 (z_get (zc_expr c) v).
Definition z_lower (v : Z) (c : zcons) : bool := negb (z_independent v c) && negb (Z.ltb 0 (z_get (zc_expr c) v)).
(** omega.rs:389-440 [eliminate_variable_int]. *)
Definition combine_bounds (v : Z) (lo hi : zcons) : zcons :=
  normalize (ZC (z_add (z_scale (l_remove (zc_expr lo) v) (z_get (zc_expr hi) v))
                       (z_scale (l_remove (zc_expr hi) v) (- z_get (zc_expr lo) v))) false).
Definition z_eliminate (cs : list zcons) (v : Z) : list zcons :=
  List.filter (z_independent v) cs ++
  flat_map (fun lo => List.map (combine_bounds v lo) (List.filter (z_upper v) cs)) (List.filter (z_lower v) cs).
Definition z_contradiction (c : zcons) : bool := is_constant (zc_expr c) && negb (z_satisfied c).
Fixpoint z_eliminate_all (vs : list Z) (cs : list zcons) : bool :=
  match vs with
  | [] => existsb z_contradiction cs
  | v :: vs => let cs := z_eliminate cs v in if existsb z_contradiction cs then true else z_eliminate_all vs cs
  end.
Definition z_vars (cs : list zcons) : list Z :=
  elements (union_list ((fun c => dom (D := gset Z) (lm (zc_expr c))) <$> cs)).
(** omega.rs:344-384 [omega_unsat]: the variables are taken in the iteration order of a hash set,
    which is arbitrary; [order] is any function producing it. *)
Definition omega_unsat (order : list Z -> list Z) (cs : list zcons) : bool :=
  match cs with
  | [] => false
  | _ =>
      let cs := normalize <$> cs in
      if existsb z_contradiction cs then true else z_eliminate_all (order (z_vars cs)) cs
  end.

(** reduction.rs:2611-2658 [omega_hyp_constraints]. Both sides are reified even when the first
    fails. *)
Definition hyp_constraint (rel : string) (lhs rhs : zexpr) : list zcons :=
  if (rel =? "Lt") || (rel =? "lt") then [ZC (z_add (z_sub lhs rhs) (z_const 1)) false]
  else if (rel =? "Le") || (rel =? "le") then [ZC (z_sub lhs rhs) false]
  else if (rel =? "Gt") || (rel =? "gt") then [ZC (z_add (z_sub rhs lhs) (z_const 1)) false]
  else if (rel =? "Ge") || (rel =? "ge") then [ZC (z_sub rhs lhs) false]
  else [].
Fixpoint hyp_constraints (hs : list term) (st : interner) : list zcons * interner :=
  match hs with
  | [] => ([], st)
  | h :: hs =>
      match extract_comparison h with
      | Some (rel, l, r) =>
          let '(ol, st) := reify_int_linear (read l) st in
          let '(orr, st) := reify_int_linear (read r) st in
          let c := match ol, orr with Some a, Some b => hyp_constraint rel a b | _, _ => [] end in
          let '(cs, st) := hyp_constraints hs st in (c ++ cs, st)
      | None => hyp_constraints hs st
      end
  end.
(** reduction.rs:2575-2580 and 2589-2604, 2672-2683 and 2693-2707: the conclusion, given the hypothesis constraints. *)
Definition conclude (order : list Z -> list Z) (cs : list zcons) (st : interner) (concl : term) : bool :=
  match extract_comparison concl with
  | Some (rel, l, r) =>
      let '(ol, st) := reify_int_linear (read l) st in
      let '(orr, st) := reify_int_linear (read r) st in
      match ol, orr with
      | Some a, Some b =>
          match z_negated_goal rel a b with
          | Some c => omega_unsat order (cs ++ [c])
          | None => false
          end
      | _, _ => false
      end
  | None => false
  end.
(** reduction.rs:2551-2606 [try_try_omega_reduce], 2663-2710 [try_domega_solve_conclude], on a
    normalised goal. *)
Definition omega_accepts (order : list Z -> list Z) (goal : term) : bool :=
  match extract_implications goal with
  | Some (hs, concl) => let '(cs, st) := hyp_constraints hs in_new in conclude order cs st concl
  | None => conclude order [] in_new goal
  end.
