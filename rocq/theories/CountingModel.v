(** The counting-principle refuter, [/repo/crates/logicaffeine_proof/src/counting_principle.rs] lines 20-100, and the size
    bounds read off a rank annotation, [/repo/crates/logicaffeine_proof/src/complexity.rs] lines 18-80.

    Simplified: numbers are [nat] (the code uses [u64]); hash maps and sets are lists, so the degree map is visited in order of
    first occurrence. *)
From Coq Require Import List Arith Bool.
Import ListNotations.

(** [Lit]: variable and sign. *)
Definition lit : Type := nat * bool.
(** [CountingCert] (22-26) and [check] (31-33). *)
Record cert := Cert { c_n : nat; c_q : nat; c_remainder : nat }.
Definition check (c : cert) : bool := (2 <=? c_q c) && negb (c_remainder c =? 0) && (c_n c mod c_q c =? c_remainder c).

(** [key2] (46). *)
Definition key2 (x y : nat) : nat * nat := if x <? y then (x, y) else (y, x).
(** The clause loop (51-62). *)
Fixpoint classify (clauses : list (list lit)) (coverage : list (list nat)) (disjoint : list (nat * nat)) : option (list (list nat) * list (nat * nat)) :=
  match clauses with
  | [] => Some (coverage, disjoint)
  | c :: cs =>
      if forallb snd c then
        match c with [] => None | _ => classify cs (coverage ++ [map fst c]) disjoint end
      else match c with
           | [(x, false); (y, false)] => classify cs coverage (key2 x y :: disjoint)
           | _ => None
           end
  end.
(** The test of one coverage clause (70-81): no repeated block (71-74), every pair mutually exclusive (77-81). *)
Definition has_pair (d : list (nat * nat)) (p : nat * nat) : bool := existsb (fun e => (fst e =? fst p) && (snd e =? snd p)) d.
Fixpoint pairs_disjoint (d : list (nat * nat)) (cov : list nat) : bool :=
  match cov with
  | [] => true
  | x :: rest => forallb (fun y => has_pair d (key2 x y)) rest && pairs_disjoint d rest
  end.
Definition cov_ok (d : list (nat * nat)) (cov : list nat) : bool :=
  (length (nodup Nat.eq_dec cov) =? length cov) && pairs_disjoint d cov.
(** The degree map (76): blocks and their degrees. *)
Definition degrees (coverage : list (list nat)) : list nat :=
  map (count_occ Nat.eq_dec (concat coverage)) (nodup Nat.eq_dec (concat coverage)).
(** [counting_certificate] (42-95). *)
Definition counting_certificate (num_vars : nat) (clauses : list (list lit)) : option cert :=
  if num_vars <? 2 then None
  else match classify clauses [] [] with
       | None => None
       | Some (coverage, disjoint) =>
           let n := length coverage in
           if n <? 2 then None
           else if negb (forallb (cov_ok disjoint) coverage) then None
           else match degrees coverage with
                | [] => None
                | q :: ds =>
                    if (q <? 2) || existsb (fun d => negb (d =? q)) (q :: ds) then None
                    else let remainder := n mod q in
                         if remainder =? 0 then None else Some (Cert n q remainder)
                end
       end.
(** [refute_counting] (98-100). *)
Definition refute_counting (num_vars : nat) (clauses : list (list lit)) : bool :=
  match counting_certificate num_vars clauses with Some c => check c | None => false end.

(** complexity.rs:31-40 [SizeBound]. *)
Record size_bound := SizeBound { levels : nat; max_width : nat; bound : nat; actual : nat }.
(** complexity.rs:50-52: [ranks.windows(2).any(|w| w[1] > w[0])]. *)
Fixpoint increases (ranks : list nat) : bool :=
  match ranks with
  | a :: (b :: _) as rest => (a <? b) || increases rest
  | _ => false
  end.
(** complexity.rs:46-63 [certify_size_bound]. *)
Definition certify_size_bound (ranks : list nat) : option size_bound :=
  match ranks with
  | [] => Some (SizeBound 0 0 0 0)
  | _ =>
      if increases ranks then None
      else let counts := map (count_occ Nat.eq_dec ranks) (nodup Nat.eq_dec ranks) in
           let lv := length counts in
           let mw := fold_right Nat.max 0 counts in
           Some (SizeBound lv mw (lv * mw) (length ranks))
  end.
(** complexity.rs:69-79 [certify]; [accepted] is the verdict of the PR checker. *)
Definition certify {Step} (accepted : bool) (steps : list Step) (ranks : list nat) : option size_bound :=
  if negb (length ranks =? length steps) then None
  else if negb accepted then None
  else match certify_size_bound ranks with
       | Some b => if actual b <=? bound b then Some b else None
       | None => None
       end.
