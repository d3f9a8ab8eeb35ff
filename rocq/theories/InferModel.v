(** Model of type inference in the kernel for sorts, variables, globals, products, abstractions, lets and applications (crates/logicaffeine_kernel/src/type_checker.rs 51-170, 453-525),
    and of the certificate check on top of it (certificate.rs 64-89). *)
From Coq Require Import List Bool.
From stdpp Require Import base decidable list strings.
From Verif Require Import SubstModel.

Section Model.
Notation name := string.
(** Universes with their successor and impredicative maximum, which C89 is about. *)
Variable univ : Type.
Variable succ : univ -> univ.
Variable imax : univ -> univ -> option univ.
Variable univ_eq : univ -> univ -> bool.
(** Leaves of terms; literals are left out. *)
Inductive leaf := LSort (u : univ) | LGlobal (g : name).
(** type_checker.rs 1600, 1606. *)
Definition leaf_eq (a b : leaf) : bool := match a, b with LSort u, LSort v => univ_eq u v | LGlobal g, LGlobal h => bool_decide (g = h) | _, _ => false end.
Notation term := (term leaf).
Notation sort u := (TLeaf leaf (LSort u)).
(** context.rs 449-464: the types of globals. *)
Variable globals : name -> option term.
(** Reduction to normal form, and the comparison of the type found with the type expected ([is_subtype] below). *)
Variable normalize : list (name * term) -> term -> option term.
Variable subtype : nat -> list (name * term) -> term -> term -> option bool.
(** context.rs 233-244: the latest binding of a name hides the others. *)
Fixpoint lookup (G : list (name * term)) (x : name) : option term := match G with [] => None | (y, A) :: G => if decide (y = x) then Some A else lookup G x end.
(** 516-525. *)
Definition as_sort (t : term) : option univ := match t with TLeaf _ (LSort u) => Some u | _ => None end.
Definition as_pi (t : term) : option (name * term * term) := match t with TBind _ BPi [A] x B => Some (x, A, B) | _ => None end.
Definition is_hole (t : term) : bool := match t with THole _ => true | _ => false end.
(** 475-483. *)
Definition placeholder (t : term) : option (name * term) := match t with TBind _ BLambda [TLeaf _ (LGlobal g)] x b => if decide (g = "_") then Some (x, b) else None | _ => None end.
(** 51-170 and 453-514; [None] stands for an error, and for the forms left out (match, fixpoints, literals); [n] bounds the depth. *)
Fixpoint infer (n : nat) (G : list (name * term)) (t : term) : option term :=
  match n with O => None | S n =>
    match t with
    | TLeaf _ (LSort u) => Some (sort (succ u))
    | TVar _ x => lookup G x
    | TLeaf _ (LGlobal g) => globals g
    | TBind _ BPi [A] x B => a ← infer n G A; u ← as_sort a; b ← infer n ((x, A) :: G) B; v ← as_sort b; w ← imax u v; Some (sort w)
    | TBind _ BLambda [A] x b => a ← infer n G A; _ ← as_sort a; B ← infer n ((x, A) :: G) b; Some (TBind leaf BPi [A] x B)
    | TBind _ BLet [A; v] x b => a ← infer n G A; _ ← as_sort a; _ ← check n G v A; b ← substitute leaf n b x v; infer n G b
    | TNode _ NApp [f; a] =>
        F ← infer n G f; F ← match as_pi F with Some _ => Some F | None => normalize G F end;
        '(x, A, B) ← as_pi F; _ ← check n G a A; substitute leaf n B x a
    | _ => None
    end
  end
with check (n : nat) (G : list (name * term)) (t expected : term) : option unit :=
  match n with O => None | S n =>
    if is_hole t then match as_sort expected with Some _ => Some () | None => None end
    else if is_hole expected then _ ← infer n G t; Some ()
    else
      let plain := T ← infer n G t; s ← subtype n G T expected; if (s : bool) then Some () else None in
      match placeholder t, as_pi expected with
      | Some (x, b), Some (y, A, B) => B ← (if decide (x = y) then Some B else substitute leaf n B y (TVar leaf x)); check n ((x, A) :: G) b B
      | _, _ => plain
      end
  end.
(** certificate.rs 77-88, in the context without local variables. *)
Definition recheck (n : nat) (proof claim : term) : bool := match infer n [] proof with Some T => bool_decide (subtype n [] T claim = Some true) | None => false end.
End Model.
(** 1309-1323; [slow] is what it does when the terms are not equal as they stand. *)
Definition is_subtype {univ} (univ_eq : univ -> univ -> bool) (slow : list (string * term (leaf univ)) -> term (leaf univ) -> term (leaf univ) -> option bool) (n : nat) (G : list (string * term (leaf univ))) (a b : term (leaf univ)) : option bool :=
  e ← types_equal (leaf univ) (leaf_eq univ univ_eq) n a b; if (e : bool) then Some true else slow G a b.
