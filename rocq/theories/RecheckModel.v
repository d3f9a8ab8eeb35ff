(** Model of the terms of the second kernel: conversion from and to named terms, shifting and substitution (crates/logicaffeine_kernel/src/recheck.rs 59-330). *)
From Coq Require Import List Bool ZArith.
From stdpp Require Import base decidable list strings pretty.
From Verif Require Import SubstModel.

(** 32-41: an ill-formed term, or one outside of what the second kernel covers. *)
Inductive res (A : Type) := Ok (a : A) | Ill | Unsupported.
Arguments Ok {A} a. Arguments Ill {A}. Arguments Unsupported {A}.
Definition rbind {A B} (r : res A) (f : A -> res B) : res B := match r with Ok a => f a | Ill => Ill | Unsupported => Unsupported end.
Definition rmap {A B} (f : A -> res B) : list A -> res (list B) := fix go l := match l with [] => Ok [] | a :: l => rbind (f a) (fun b => rbind (go l) (fun bs => Ok (b :: bs))) end.

Section Model.
(** Sorts, globals, constants and literals hold no variables. *)
Variable leaf : Type.
Notation name := string.
(** 59-87. App and Match are nodes; Pi, Lam, Fix and Let bind one variable in their last part; a mutual block of n bodies binds n variables in each of them. *)
Inductive db := Var (k : nat) | Leaf (l : leaf) | Node (k : node) (ds : list db) | Bind (k : binder) (ds : list db) (d : db) | Mutual (ds : list db) (i : nat).
(** 100-107; the innermost name is first. *)
Fixpoint position (x : name) (s : list name) : option nat := match s with [] => None | y :: s => if decide (y = x) then Some 0 else S <$> position x s end.
(** 97-176; named terms are those of C90, without mutual blocks. *)
Fixpoint to_db (s : list name) (t : term leaf) : res db :=
  match t with
  | TVar _ x => match position x s with Some k => Ok (Var k) | None => Ill end
  | TLeaf _ l => Ok (Leaf l)
  | THole _ => Unsupported
  | TNode _ k ts => rbind (rmap (to_db s) ts) (fun ds => Ok (Node k ds))
  | TBind _ k ts x b => rbind (rmap (to_db s) ts) (fun ds => rbind (to_db (x :: s) b) (fun d => Ok (Bind k ds d)))
  end.
(** 181-229, without mutual blocks (None). *)
Definition binder_name (k : binder) (depth : nat) : name := (match k with BFix => "rec" | _ => "v" end) +:+ pretty depth.
Fixpoint from_db (t : db) (depth : nat) : option (term leaf) :=
  match t with
  | Var k => Some (TVar leaf ("v" +:+ pretty (depth - 1 - k)))
  | Leaf l => Some (TLeaf leaf l)
  | Node k ds => ts ← mapM (fun d => from_db d depth) ds; Some (TNode leaf k ts)
  | Bind k ds d => ts ← mapM (fun d => from_db d depth) ds; b ← from_db d (S depth); Some (TBind leaf k ts (binder_name k depth) b)
  | Mutual _ _ => None
  end.
(** 237-267; None where the code would compute an index below zero and wrap around. Indices are below 2^63, being less than the number of enclosing binders. *)
Fixpoint shift (d : Z) (c : nat) (t : db) : option db :=
  match t with
  | Var k => if decide (c <= k) then if decide (Z.of_nat k + d < 0)%Z then None else Some (Var (Z.to_nat (Z.of_nat k + d))) else Some (Var k)
  | Leaf l => Some (Leaf l)
  | Node k ds => es ← mapM (shift d c) ds; Some (Node k es)
  | Bind k ds b => es ← mapM (shift d c) ds; b ← shift d (S c) b; Some (Bind k es b)
  | Mutual ds i => es ← mapM (shift d (c + length ds)) ds; Some (Mutual es i)
  end.
(** 271-311. *)
Fixpoint subst (j : nat) (s t : db) : option db :=
  match t with
  | Var k => Some (if decide (k = j) then s else Var k)
  | Leaf l => Some (Leaf l)
  | Node k ds => es ← mapM (subst j s) ds; Some (Node k es)
  | Bind k ds b => es ← mapM (subst j s) ds; s ← shift 1 0 s; b ← subst (S j) s b; Some (Bind k es b)
  | Mutual ds i => s ← shift (Z.of_nat (length ds)) 0 s; es ← mapM (subst (j + length ds) s) ds; Some (Mutual es i)
  end.
(** 314-316. *)
Definition beta_open (body arg : db) : option db := arg ← shift 1 0 arg; b ← subst 0 arg body; shift (-1) 0 b.
(** 322-330; [k] counts up to n. *)
Fixpoint open_loop (defs : list db) (k todo : nat) (result : db) : option db :=
  match todo with O => Some result | S todo => r ← beta_open result (Mutual defs (length defs - 1 - k)); open_loop defs (S k) todo r end.
Definition open_mutual (defs : list db) (index : nat) : option db := d ← defs !! index; open_loop defs 0 (length defs) d.
End Model.
