(** Model of the exactly-one + parity refuter [crates/logicaffeine_proof/src/parity_cardinality.rs]
    and of the recovery of parity constraints from clauses [crates/logicaffeine_proof/src/lyapunov.rs:586-631].
    Hash maps are lists in order of first insertion. Variables are below 2^31, so that the sign
    patterns do not overflow. *)
From Coq Require Import List Arith Bool.
From stdpp Require Import list sorting.
From Verif Require Import RupModel GaussModel OrderModel.
Local Open Scope list_scope.

(** lyapunov.rs:597-599, the sorted variables of a clause. *)
Definition cvars (c : clause) : list nat := var_set (map (fun l => (lvar l, lpos l)) c).
(** lyapunov.rs:600-602: clauses with a repeated or an unknown variable are skipped. *)
Definition kept (n : nat) (c : clause) : bool := (length (cvars c) =? length c) && negb (existsb (fun v => n <=? v) (cvars c)).
(** lyapunov.rs:603-604, the parity of the number of negated literals. *)
Definition neg_parity (c : clause) : bool := Nat.odd (length (List.filter (fun l => negb (lpos l)) c)).
(** lyapunov.rs:606-608, the sorted sign pattern. *)
Definition code (l : lit) : nat := lvar l * 2 + (if lpos l then 0 else 1).
Definition sig (c : clause) : list nat := merge_sort le (map code c).
(** lyapunov.rs:612-629, the equation of a group of clauses over [vars], if it is a gadget. *)
Definition group_eq (vars : list nat) (g : list clause) : option xor_eq :=
  let k := length vars in
  if (k =? 0) || (12 <? k) then None
  else
    match map neg_parity g with
    | [] => None
    | p :: ps =>
        if negb (length (p :: ps) =? 2 ^ (k - 1)) || negb (forallb (fun q => Bool.eqb q p) (p :: ps)) then None
        else if negb (length (remove_dups (map sig g)) =? 2 ^ (k - 1)) then None
        else Some (XorEq vars (negb p))
    end.
(** lyapunov.rs:592-631 [extract_xor]. *)
Definition extract_xor (n : nat) (cs : list clause) : list xor_eq :=
  let good := List.filter (kept n) cs in
  omap (fun vars => group_eq vars (List.filter (fun c => bool_decide (cvars c = vars)) good)) (remove_dups (map cvars good)).
(** parity_cardinality.rs:44-63: a clause that, with the exclusions [amo], says exactly one of its
    variables is true. *)
Definition exactly_one (amo : list (nat * nat)) (c : clause) : bool :=
  negb (length c <? 2) && forallb lpos c && (length (remove_dups (map lvar c)) =? length c) &&
  forallb (fun i => forallb (fun j => bool_decide (key2 (nth i (map lvar c) 0) (nth j (map lvar c) 0) ∈ amo)) (seq (i + 1) (length c - (i + 1)))) (seq 0 (length c)).
Definition is_unsat (o : xor_outcome) : bool := match o with XUnsat _ => true | XSat _ => false end.
(** parity_cardinality.rs:22-74 [refute]. *)
Definition refute (n : nat) (cs : list clause) : bool :=
  if n =? 0 then false
  else
    let amo := pair_keys false cs in
    let eqs := extract_xor n cs in
    if (length amo =? 0) || (length eqs =? 0) then false
    else existsb (fun c => exactly_one amo c && is_unsat (xor_solve (eqs ++ [XorEq (map lvar c) true]) n)) cs.
