(** The sparse linear expressions of [crates/logicaffeine_kernel/src/lia.rs:31-129] (rational
    coefficients) and [crates/logicaffeine_kernel/src/omega.rs:47-130] (integer coefficients). The two
    files contain the same code over two number types, so the number type is a parameter. *)
From Coq Require Import ZArith String List.
From stdpp Require Import gmap strings list.
From Verif Require Import SynModel.
Local Open Scope string_scope.

Section LinExpr.
  Context {R : Type} (rO rI : R) (radd rmul : R -> R -> R) (ropp : R -> R) (isz : R -> bool) (of_Z : Z -> R).

  (** lia.rs:41-46, omega.rs:50-55: the [BTreeMap] is a finite map; no observable result depends on
      its order except the elimination order, which is fixed separately. *)
  Record lexpr := LE { lc : R; lm : gmap Z R }.
  (** lia.rs:50-55, omega.rs:59-64 [constant]. *)
  Definition l_const (c : R) : lexpr := LE c ∅.
  (** lia.rs:58-65, omega.rs:67-74 [var]. *)
  Definition l_var (i : Z) : lexpr := LE rO {[i := rI]}.
  (** lia.rs:68-82, omega.rs:77-88 [add]: for every key of [other] the entry becomes the sum and is
      removed when the sum is zero; keys only in [self] keep their value. *)
  Definition add_entry (x y : option R) : option R :=
    match x, y with
    | _, None => x
    | None, Some b => let s := radd rO b in if isz s then None else Some s
    | Some a, Some b => let s := radd a b in if isz s then None else Some s
    end.
  Definition l_add (a b : lexpr) : lexpr := LE (radd (lc a) (lc b)) (merge add_entry (lm a) (lm b)).
  (** lia.rs:85-94, omega.rs:91-96 [neg]. *)
  Definition l_neg (a : lexpr) : lexpr := LE (ropp (lc a)) (ropp <$> lm a).
  (** lia.rs:97-99, omega.rs:99-101 [sub]. *)
  Definition l_sub (a b : lexpr) : lexpr := l_add a (l_neg b).
  (** lia.rs:102-115, omega.rs:104-119 [scale]. *)
  Definition l_scale (a : lexpr) (k : R) : lexpr :=
    if isz k then l_const rO
    else LE (rmul (lc a) k) (omap (fun c => let p := rmul c k in if isz p then None else Some p) (lm a)).
  (** lia.rs:118-120, omega.rs:121-123 [is_constant]. *)
  Definition is_constant (a : lexpr) : bool := Nat.eqb (size (lm a)) 0.
  (** lia.rs:123-128, omega.rs:126-128 [get_coeff]. *)
  Definition l_get (a : lexpr) (v : Z) : R := default rO (lm a !! v).
  (** [rest.coefficients.remove(&var)], lia.rs:385, omega.rs:401. *)
  Definition l_remove (a : lexpr) (v : Z) : lexpr := LE (lc a) (delete v (lm a)).

  (** lia.rs:193-249 [reify_linear], omega.rs:210-256 [reify_int_linear]: the error values are not
      observable by the callers, so failure is [None]; the interner is threaded through. *)
  Fixpoint reify_lin (x : stx) (st : interner) : option lexpr * interner :=
    match x with
    | XLit n => (Some (l_const (of_Z n)), st)
    | XVar i => (Some (l_var i), st)
    | XName s => let '(st, i) := intern st s in (Some (l_var i), st)
    | XBin op a b =>
        if (op =? "add") || (op =? "sub") || (op =? "mul") then
          match reify_lin a st with
          | (None, st) => (None, st)
          | (Some la, st) =>
              match reify_lin b st with
              | (None, st) => (None, st)
              | (Some lb, st) =>
                  (if op =? "add" then Some (l_add la lb)
                   else if op =? "sub" then Some (l_sub la lb)
                   else if is_constant la then Some (l_scale lb (lc la))
                   else if is_constant lb then Some (l_scale la (lc lb))
                   else None, st)
              end
          end
        else (None, st)
    | XBad => (None, st)
    end.
End LinExpr.
Global Arguments lexpr : clear implicits.
Global Arguments LE {R}.
Global Arguments lc {R}.
Global Arguments lm {R}.
