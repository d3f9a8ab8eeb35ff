(** The local lemma certificate and resampling: [/repo/crates/logicaffeine_proof/src/lll.rs] lines 22-107.

    Simplified: the floating-point test [E * 2^-w * (d + 1) <= 1] is a parameter [fits w d]; random bits come from a stream
    (SplitMix64 in the code, a parameter here); variables are [nat]. *)
From Coq Require Import List Arith Bool.
Import ListNotations.

(** [Lit]: variable and sign. *)
Definition lit : Type := nat * bool.
Definition var (l : lit) : nat := fst l.
Definition is_positive (l : lit) : bool := snd l.
(** [lll_dependency_degree] (30-50): the occurrence lists (32-37) and the maximum over the clauses (38-49). *)
Definition occ (clauses : list (list lit)) (v : nat) : list nat :=
  flat_map (fun ic => flat_map (fun l => if var l =? v then [fst ic] else []) (snd ic)) (combine (seq 0 (length clauses)) clauses).
Definition neighbours (clauses : list (list lit)) (i : nat) (c : list lit) : list nat :=
  nodup Nat.eq_dec (flat_map (fun l => filter (fun j => negb (j =? i)) (occ clauses (var l))) c).
Definition lll_dependency_degree (clauses : list (list lit)) : nat :=
  fold_left (fun d ic => Nat.max d (length (neighbours clauses (fst ic) (snd ic)))) (combine (seq 0 (length clauses)) clauses) 0.
(** [LllSatCert] (22-25); the width of the empty set is [usize::MAX], here [None]. *)
Record cert := Cert { min_width : option nat; max_degree : nat }.
(** [lll_certifies_sat] (56-71). *)
Definition lll_certifies_sat (fits : nat -> nat -> bool) (clauses : list (list lit)) : option cert :=
  match clauses with
  | [] => Some (Cert None 0)
  | c0 :: cs =>
      let w := fold_left (fun w c => Nat.min w (length c)) cs (length c0) in
      if w =? 0 then None
      else let d := lll_dependency_degree clauses in
           if fits w d then Some (Cert (Some w) d) else None
  end.
(** [violated] (92); a variable outside the assignment panics in the code. *)
Definition violated (a : list bool) (c : list lit) : bool := forallb (fun l => negb (Bool.eqb (nth (var l) a false) (is_positive l))) c.
Fixpoint set_nth (l : list bool) (k : nat) (v : bool) : list bool :=
  match l, k with [], _ => [] | _ :: l, O => v :: l | x :: l, S k => x :: set_nth l k v end.
(** Resampling one clause (97-99): [k] is the number of bits drawn before. *)
Fixpoint resample (next : nat -> bool) (k : nat) (c : list lit) (a : list bool) : nat * list bool :=
  match c with [] => (k, a) | l :: c => resample next (S k) c (set_nth a (var l) (next k)) end.
(** The loop (93-102) and the final test (103). *)
Fixpoint resample_loop (rounds : nat) (next : nat -> bool) (k : nat) (clauses : list (list lit)) (a : list bool) : option (list bool) :=
  match rounds with
  | O => if forallb (fun c => negb (violated a c)) clauses then Some a else None
  | S rounds => match find (violated a) clauses with
                | None => Some a
                | Some c => let '(k, a) := resample next k c a in resample_loop rounds next k clauses a
                end
  end.
(** [moser_tardos_witness] (77-104). *)
Definition moser_tardos_witness (num_vars : nat) (clauses : list (list lit)) (next : nat -> bool) (max_resamples : nat) : option (list bool) :=
  resample_loop max_resamples next num_vars clauses (map next (seq 0 num_vars)).
