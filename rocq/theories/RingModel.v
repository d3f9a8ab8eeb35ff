(** Model of [crates/logicaffeine_kernel/src/ring.rs] and of the [ring] tactic of
    [crates/logicaffeine_kernel/src/reduction.rs]. [BigInt] is [Z]; the [BTreeMap]s are finite maps
    (their order is not observable). *)
From Coq Require Import ZArith String List.
From stdpp Require Import gmap strings list.
From Verif Require Import SynModel LinExprModel OmegaModel.
Local Open Scope Z_scope.
Local Open Scope string_scope.
Local Open Scope list_scope.

(** ring.rs:48-52 [Monomial]: variable to exponent. *)
Notation mono := (gmap Z Z).
(** ring.rs:56-60 [one], 63-67 [var]. *)
Definition m_one : mono := ∅.
Definition m_var (i : Z) : mono := {[i := 1]}.
(** ring.rs:73-80 [mul]. *)
Definition m_mul (a b : mono) : mono :=
  merge (fun x y => match x, y with _, None => x | None, Some e => Some (0 + e) | Some d, Some e => Some (d + e) end) a b.

(** ring.rs:89-92 [Polynomial]. *)
Notation poly := (gmap (gmap Z Z) Z).
(** ring.rs:99-103 [zero]. *)
Definition p_zero : poly := ∅.
(** ring.rs:108-116 [constant]. *)
Definition p_const (c : Z) : poly := if z_isz c then p_zero else {[m_one := c]}.
(** ring.rs:119-123 [var]. *)
Definition p_var (i : Z) : poly := {[m_var i := 1]}.
(** ring.rs:126-136 [add]. *)
Definition p_add (a b : poly) : poly := merge (add_entry 0 Z.add z_isz) a b.
(** ring.rs:139-145 [neg]. *)
Definition p_neg (a : poly) : poly := Z.opp <$> a.
(** ring.rs:148-150 [sub]. *)
Definition p_sub (a b : poly) : poly := p_add a (p_neg b).
(** ring.rs:153-166 [mul]: accumulate every product of terms, then drop the zero coefficients. *)
Definition add_term (acc : poly) (m : mono) (c : Z) : poly := <[m := default 0 (acc !! m) + c]> acc.
Definition mul_terms (a b : list (mono * Z)) : poly :=
  fold_left (fun acc p => fold_left (fun acc q => add_term acc (m_mul (fst p) (fst q)) (snd p * snd q)) b acc) a p_zero.
Definition p_mul (a b : poly) : poly := omap (fun c => if z_isz c then None else Some c) (mul_terms (map_to_list a) (map_to_list b)).
(** ring.rs:171-173 [canonical_eq]. *)
Definition canonical_eq (a b : poly) : bool := bool_decide (a = b).

(** ring.rs:212-268 [reify]. *)
Fixpoint p_reify (x : stx) (st : interner) : option poly * interner :=
  match x with
  | XLit n => (Some (p_const n), st)
  | XVar i => (Some (p_var i), st)
  | XName s => let '(st, i) := intern st s in (Some (p_var i), st)
  | XBin op a b =>
      if (op =? "add") || (op =? "sub") || (op =? "mul") then
        match p_reify a st with
        | (None, st) => (None, st)
        | (Some pa, st) =>
            match p_reify b st with
            | (None, st) => (None, st)
            | (Some pb, st) =>
                (Some (if op =? "add" then p_add pa pb else if op =? "sub" then p_sub pa pb else p_mul pa pb), st)
            end
        end
      else (None, st)
  | XBad => (None, st)
  end.

(** reduction.rs:2352-2357 [is_ring_type]. *)
Definition is_ring_type (t : term) : bool :=
  match extract_sname t with Some s => (s =? "Int") || (s =? "Nat") | None => false end.
(** reduction.rs:2282-2318 [try_try_ring_reduce], 2322-2348 [try_dring_solve_conclude], on a
    normalised goal. *)
Definition ring_accepts (goal : term) : bool :=
  match extract_eq goal with
  | Some (ty, l, r) =>
      if is_ring_type ty then
        match p_reify (read l) in_new with
        | (Some pl, st) =>
            match p_reify (read r) st with
            | (Some pr, _) => canonical_eq pl pr
            | (None, _) => false
            end
        | (None, _) => false
        end
      else false
  | None => false
  end.
