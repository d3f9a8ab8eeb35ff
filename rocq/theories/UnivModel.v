(** Model of universe levels (crates/logicaffeine_kernel/src/term.rs 160-440). *)
From Coq Require Import NArith List Bool.
From stdpp Require Import base decidable list numbers.

(** A name is its list of characters; Type levels are 32-bit, and offsets 64-bit numbers that are not checked for overflow. *)
Notation name := (list N).
(** 167-190. *)
Inductive universe := SPrp | Prp | Typ (n : N) | UVar (v : name) | USucc (l : universe) | UMax (a b : universe) | UIMax (a b : universe).
(** 268-279; [Prop] is 0 and [Type n] is n + 1. *)
Inductive lnat := LConst (c : N) | LVar (v : name) | LSucc (l : lnat) | LMax (a b : lnat) | LIMax (a b : lnat).
(** 281-293. *)
Fixpoint to_lnat (u : universe) : lnat :=
  match u with
  | SPrp => LConst 0 | Prp => LConst 0 | Typ n => LConst (n + 1) | UVar v => LVar v
  | USucc l => LSucc (to_lnat l) | UMax a b => LMax (to_lnat a) (to_lnat b) | UIMax a b => LIMax (to_lnat a) (to_lnat b)
  end.
(** 299-328; [None] is out of fuel. *)
Fixpoint simp (n : nat) (t : lnat) : option lnat :=
  match n with O => None | S n =>
    match t with
    | LConst _ | LVar _ => Some t
    | LSucc l => l ← simp n l; Some (LSucc l)
    | LMax a b => a ← simp n a; b ← simp n b; Some (LMax a b)
    | LIMax a b =>
        a ← simp n a; b ← simp n b;
        match b with
        | LConst c => if (c =? 0)%N then Some (LConst 0) else simp n (LMax a b)
        | LSucc _ => simp n (LMax a b)
        | LMax b1 b2 => simp n (LMax (LIMax a b1) (LIMax a b2))
        | LIMax b1 b2 => simp n (LIMax (LMax a b1) b2)
        | LVar _ => Some (LIMax a b)
        end
    end
  end.
Definition or_else {A} (a b : option A) : option A := match a with Some x => Some x | None => b end.
(** 331-342. *)
Fixpoint pivot (t : lnat) : option name :=
  match t with
  | LConst _ | LVar _ => None
  | LSucc l => pivot l
  | LMax a b => or_else (pivot a) (pivot b)
  | LIMax a b => match b with LVar v => Some v | _ => or_else (pivot a) (pivot b) end
  end.
(** 345-363. *)
Fixpoint subst (t : lnat) (v : name) (r : lnat) : lnat :=
  match t with
  | LConst _ => t
  | LVar x => if decide (x = v) then r else t
  | LSucc l => LSucc (subst l v r)
  | LMax a b => LMax (subst a v r) (subst b v r)
  | LIMax a b => LIMax (subst a v r) (subst b v r)
  end.
(** 366-380; [None] is the unreachable branch. *)
Fixpoint atoms (t : lnat) (off : N) : option (list (option name * N)) :=
  match t with
  | LConst c => Some [(None, (c + off)%N)]
  | LVar v => Some [(Some v, off)]
  | LSucc l => atoms l (off + 1)
  | LMax a b => x ← atoms a off; y ← atoms b off; Some (x ++ y)
  | LIMax _ _ => None
  end.
(** 387-402. *)
Definition least (bs : list (option name * N)) : N := fold_right N.max 0%N (map snd bs).
Definition leq_linear (a b : lnat) : option bool :=
  x ← atoms a 0; y ← atoms b 0;
  Some (forallb (fun p => match fst p with
    | None => (snd p <=? least y)%N
    | Some v => existsb (fun q => bool_decide (fst q = Some v) && (snd p <=? snd q)%N) y
    end) x).
(** 428: the name of the positive case, with the mark U+2726. *)
Definition marked (v : name) : name := v ++ [10022%N].
(** 418-438. *)
Fixpoint lnat_leq (n : nat) (a b : lnat) : option bool :=
  match n with O => None | S n =>
    match or_else (pivot a) (pivot b) with
    | Some v =>
        a0 ← simp n (subst a v (LConst 0)); b0 ← simp n (subst b v (LConst 0));
        ap ← simp n (subst a v (LSucc (LVar (marked v)))); bp ← simp n (subst b v (LSucc (LVar (marked v))));
        x ← lnat_leq n a0 b0; if (x : bool) then lnat_leq n ap bp else Some false
    | None => leq_linear a b
    end
  end.
(** 405-416 level_leq, is_subtype_of; 251-253 equiv. *)
Definition level_leq (n : nat) (a b : universe) : option bool :=
  match a, b with
  | SPrp, _ => Some true
  | _, SPrp => Some false
  | _, _ => x ← simp n (to_lnat a); y ← simp n (to_lnat b); lnat_leq n x y
  end.
Definition equiv (n : nat) (a b : universe) : option bool := x ← level_leq n a b; if (x : bool) then level_leq n b a else Some false.
(** 196-202; the addition wraps in a release build. *)
Definition succ (u : universe) : universe := match u with SPrp | Prp => Typ 1 | Typ n => Typ ((n + 1) mod 2 ^ 32) | u => USucc u end.
(** 207-215. *)
Definition umax (a b : universe) : universe :=
  match a, b with
  | SPrp, u => u | u, SPrp => u
  | Prp, u => u | u, Prp => u
  | Typ m, Typ n => Typ (N.max m n)
  | a, b => UMax a b
  end.
(** 222-240. *)
Definition imax (n : nat) (a b : universe) : option universe :=
  match b with
  | SPrp => Some SPrp
  | Prp => Some Prp
  | Typ _ | USucc _ => Some (umax a b)
  | _ => e ← equiv n a b; Some (if (e : bool) then a else UIMax a b)
  end.
(** 257-265; [s] is the map. *)
Fixpoint usubst (n : nat) (s : name -> option universe) (u : universe) : option universe :=
  match u with
  | SPrp | Prp | Typ _ => Some u
  | UVar v => Some (match s v with Some w => w | None => u end)
  | USucc l => x ← usubst n s l; Some (succ x)
  | UMax a b => x ← usubst n s a; y ← usubst n s b; Some (umax x y)
  | UIMax a b => x ← usubst n s a; y ← usubst n s b; imax n x y
  end.
