(** Model of the second kernel's reduction, comparison and type inference, and of the check that both kernels agree, for sorts, variables, globals, products, abstractions, lets and applications
    (crates/logicaffeine_kernel/src/recheck.rs 452-582, 612-713, 749-875, 1525-1566, 1591-1648). *)
From Coq Require Import List Bool ZArith.
From stdpp Require Import base decidable list strings.
From Verif Require Import SubstModel InferModel RecheckModel.

Section Model.
Notation name := string.
(** Universes, which C89 is about: successor, impredicative maximum, equivalence, order, and the test for Prop and SProp (757-760). *)
Variable univ : Type.
Variable succ : univ -> univ.
Variable imax : univ -> univ -> option univ.
Variable ueq uleq : univ -> univ -> bool.
Variable is_prop : univ -> bool.
Notation leaf := (InferModel.leaf univ).
Notation term := (term leaf).
Notation db := (db leaf).
Arguments Var {leaf} k. Arguments Leaf {leaf} l. Arguments Node {leaf} k ds. Arguments Bind {leaf} k ds d. Arguments Mutual {leaf} ds i. Arguments LSort {univ} u. Arguments LGlobal {univ} g.
Notation Sort u := (Leaf (LSort u)). Notation Global g := (Leaf (LGlobal g)).
Notation Pi A B := (Bind BPi [A] B). Notation Lam A b := (Bind BLambda [A] b). Notation Let A v b := (Bind BLet [A; v] b). Notation App f a := (Node NApp [f; a]).
(** context.rs: the types of globals and the bodies of definitions. *)
Variable globals bodies : name -> option term.
Definition closed_db (t : term) : option db := match to_db leaf [] t with Ok d => Some d | _ => None end.
(** 456: how many steps the loop takes before it gives up and returns what it has. *)
Variable limit : nat.
(** 452-582: β, ζ and δ steps at the head. [n] bounds the depth of calls. None stands for what is left out: match and fixpoints; the globals Quot_lift and reduceBool are taken to be ordinary, and without literals the built-in operations do not reduce. *)
Definition whnf_loop (whnf : db -> option db) : nat -> db -> option db :=
  fix loop fuel cur := match fuel with O => Some cur | S fuel =>
    match cur with
    | Global g => match (t ← bodies g; closed_db t) with Some d => loop fuel d | None => Some cur end
    | App f a => fw ← whnf f; match fw with Lam _ b => r ← beta_open leaf b a; loop fuel r | Bind BFix _ _ | Mutual _ _ => None | _ => Some (App fw a) end
    | Let _ v b => r ← beta_open leaf b v; loop fuel r
    | Node NMatch _ => None
    | _ => Some cur
    end end.
Fixpoint whnf (n : nat) (t : db) : option db := match n with O => None | S n => whnf_loop (whnf n) limit t end.
Definition is_lam (t : db) : bool := match t with Bind BLambda _ _ => true | _ => false end.
(** 791-798; the innermost binder is first. *)
Definition var_type (G : list db) (k : nat) : option db := A ← G !! k; shift leaf (Z.of_nat (k + 1)) 0 A.
(** 612-713 def_eq, 749-767 proof_irrel, 769-785 is_sub, 800-875 infer, 1525-1534 infer_sort, 1555-1566 check. None stands for an error as well as for what is left out and for too small an [n]; structure η (637-643) is left out. *)
Fixpoint def_eq (n : nat) (G : list db) (a b : db) : bool :=
  match n with O => false | S n =>
    match whnf n a, whnf n b with
    | Some a, Some b =>
        match a, b with
        | Lam A body, _ => if is_lam b then match b with Lam B body' => (def_eq n G A B && def_eq n (A :: G) body body') || proof_irrel n G a b | _ => false end
                           else match (r ← shift leaf 1 0 b; whnf n (App r (Var 0))) with Some bx => def_eq n (A :: G) body bx | None => false end
        | _, Lam B body => match (r ← shift leaf 1 0 a; whnf n (App r (Var 0))) with Some ax => def_eq n (B :: G) ax body | None => false end
        | Sort u, Sort v => ueq u v || proof_irrel n G a b
        | Var i, Var j => bool_decide (i = j) || proof_irrel n G a b
        | Global g, Global h => bool_decide (g = h) || proof_irrel n G a b
        | App f x, App g y => (def_eq n G f g && def_eq n G x y) || proof_irrel n G a b
        | Pi A B, Pi A' B' => (def_eq n G A A' && def_eq n (A :: G) B B') || proof_irrel n G a b
        | _, _ => proof_irrel n G a b
        end
    | _, _ => false
    end
  end
with proof_irrel (n : nat) (G : list db) (a b : db) : bool :=
  match n with O => false | S n =>
    match infer n G a with
    | Some ta =>
        match (s ← infer n G ta; whnf n s) with
        | Some (Sort u) => if is_prop u then match infer n G b with Some tb => def_eq n G ta tb | None => false end else false
        | _ => false
        end
    | None => false
    end
  end
with is_sub (n : nat) (G : list db) (a b : db) : bool :=
  match n with O => false | S n =>
    match whnf n a, whnf n b with
    | Some (Sort u), Some (Sort v) => uleq u v
    | Some (Pi A B), Some (Pi A' B') => def_eq n G A A' && is_sub n (A :: G) B B'
    | Some a, Some b => def_eq n G a b
    | _, _ => false
    end
  end
with infer (n : nat) (G : list db) (t : db) : option db :=
  match n with O => None | S n =>
    match t with
    | Sort u => Some (Sort (succ u))
    | Var k => var_type G k
    | Global g => T ← globals g; closed_db T
    | Pi A B => u ← infer_sort n G A; v ← infer_sort n (A :: G) B; w ← imax u v; Some (Sort w)
    | Lam A b => _ ← infer_sort n G A; B ← infer n (A :: G) b; Some (Pi A B)
    | App f a => F ← infer n G f; F ← whnf n F; match F with Pi A B => if check n G a A then beta_open leaf B a else None | _ => None end
    | Let A v b => _ ← infer_sort n G A; if check n G v A then r ← beta_open leaf b v; infer n G r else None
    | _ => None
    end
  end
with infer_sort (n : nat) (G : list db) (t : db) : option univ :=
  match n with O => None | S n => T ← infer n G t; T ← whnf n T; match T with Sort u => Some u | _ => None end end
with check (n : nat) (G : list db) (t expected : db) : bool :=
  match n with O => false | S n => match infer n G t with Some T => is_sub n G T expected | None => false end end.
(** 1591-1595. *)
Definition recheck (n : nat) (t : term) : res term :=
  rbind (to_db leaf [] t) (fun d => match (T ← infer n [] d; from_db leaf T 0) with Some T => Ok T | None => Ill end).
(** 1599-1613, 1619-1648; [main] is what the first kernel finds. *)
Inductive verdict := Agreed | MainOnly | Disagree.
Definition double_check (n : nat) (main : option term) (t : term) : verdict :=
  match main, recheck n t with
  | Some T, Ok R => match to_db leaf [] T, to_db leaf [] R with Ok m, Ok r => if def_eq n [] m r then Agreed else Disagree | _, _ => MainOnly end
  | Some _, Unsupported => MainOnly
  | Some _, Ill => Disagree
  | None, Ok _ => Disagree
  | None, _ => Agreed
  end.
End Model.
