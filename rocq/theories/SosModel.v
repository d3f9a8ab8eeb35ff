(** Degree-2 Positivstellensatz refutations: [/repo/crates/logicaffeine_proof/src/sos.rs] lines 26-298.

    Simplified: integers are unbounded (the code has [i64] polynomials and [i128] rows, whose checked operations decline where
    the magnitude cap declines as well); ordered maps are association lists in the order of the insertions (no verdict depends
    on the order of the keys). *)
From Coq Require Import List ZArith Bool.
Import ListNotations.
Open Scope Z_scope.

(** [MAX_VARS] (32), [ROW_CAP] (36), [MAG_CAP] (38). *)
Definition max_vars : nat := 6.
Definition row_cap : Z := 20000.
Definition mag_cap : Z := 2 ^ 50.

(** Maps: [get] with default 0, [put] is [insert], [bump] is [*m.entry(k).or_insert(0) += v], [retain] drops the zeros. *)
Section Maps.
  Context {K : Type} (eqb : K -> K -> bool).
  Fixpoint get (k : K) (m : list (K * Z)) : Z := match m with [] => 0 | (k', c) :: m => if eqb k k' then c else get k m end.
  Fixpoint put (k : K) (v : Z) (m : list (K * Z)) : list (K * Z) :=
    match m with [] => [(k, v)] | (k', c) :: m => if eqb k k' then (k', v) :: m else (k', c) :: put k v m end.
  Definition bump (k : K) (v : Z) (m : list (K * Z)) : list (K * Z) := put k (get k m + v) m.
  Definition retain (m : list (K * Z)) : list (K * Z) := filter (fun kv => negb (snd kv =? 0)) m.
  Definition scaled (k : Z) (m o : list (K * Z)) : list (K * Z) := fold_left (fun acc kv => bump (fst kv) (k * snd kv) acc) o m.
End Maps.
Definition pair_eqb (a b : nat * nat) : bool := Nat.eqb (fst a) (fst b) && Nat.eqb (snd a) (snd b).
Notation nmap := (list (nat * Z)).
Notation qmap := (list ((nat * nat) * Z)).

(** [Poly] (42-46), [constant] (49-51), [x] (52-54), [prune] (76-80), [add] (55-65), [neg] (66-72), [sub] (73-75). *)
Record poly := Poly { pc : Z; lin : nmap; quad : qmap }.
Definition constant (c : Z) : poly := Poly c [] [].
Definition var (i : nat) : poly := Poly 0 [(i, 1)] [].
Definition prune (p : poly) : poly := Poly (pc p) (retain (lin p)) (retain (quad p)).
Definition add (p o : poly) : poly := prune (Poly (pc p + pc o) (scaled Nat.eqb 1 (lin p) (lin o)) (scaled pair_eqb 1 (quad p) (quad o))).
Definition neg (p : poly) : poly := Poly (- pc p) (map (fun kv => (fst kv, - snd kv)) (lin p)) (map (fun kv => (fst kv, - snd kv)) (quad p)).
Definition sub (p o : poly) : poly := add p (neg o).
(** [mul_linear] (82-101). *)
Definition cross (i j : nat) (v : Z) (r : nmap * qmap) : nmap * qmap :=
  if Nat.eqb i j then (bump Nat.eqb i v (fst r), snd r) else (fst r, bump pair_eqb (Nat.min i j, Nat.max i j) v (snd r)).
Definition mul_linear (a b : poly) : poly :=
  let l1 := scaled Nat.eqb (pc b) [] (lin a) in
  let l2 := scaled Nat.eqb (pc a) l1 (lin b) in
  let r := fold_left (fun r (ai : nat * Z) => fold_left (fun r (bj : nat * Z) => cross (fst ai) (fst bj) (snd ai * snd bj) r) (lin b) r) (lin a) (l2, []) in
  prune (Poly (pc a * pc b) (fst r) (snd r)).

(** [Lit] is a variable with a sign; [lit_value] (105-112). *)
Definition lit : Type := nat * bool.
Definition lit_value (l : lit) : poly := if snd l then var (fst l) else sub (constant 1) (var (fst l)).

(** [Row] (117-121), [combine] (125-149). *)
Record row := Row { coeffs : nmap; rconst : Z; prov : nmap }.
Fixpoint acc (dst src : nmap) (k : Z) : option nmap :=
  match src with
  | [] => Some dst
  | (v, c) :: src => let e := get Nat.eqb v dst + c * k in if mag_cap <? Z.abs e then None else acc (put Nat.eqb v e dst) src k
  end.
Definition combine (r : row) (ka : Z) (o : row) (kb : Z) : option row :=
  match acc [] (coeffs r) ka with
  | None => None
  | Some c1 =>
      match acc c1 (coeffs o) kb with
      | None => None
      | Some c2 =>
          let k := rconst r * ka + rconst o * kb in
          if mag_cap <? Z.abs k then None
          else match acc [] (prov r) ka with
               | None => None
               | Some p1 => match acc p1 (prov o) kb with None => None | Some p2 => Some (Row (retain c2) k (retain p2)) end
               end
      end
  end.
(** [poly_to_row] (154-163). *)
Definition zindex (n i j : nat) : nat := (n + i * n + j)%nat.
Definition poly_to_row (p : poly) (n idx : nat) : row :=
  Row (fold_left (fun m (q : (nat * nat) * Z) => put Nat.eqb (zindex n (fst (fst q)) (snd (fst q))) (snd q) m) (quad p) (lin p)) (pc p) [(idx, 1)].
(** [lift_polys] (171-206). *)
Definition pair_polys (i j : nat) : list poly :=
  let z := Poly 0 [] [((i, j), 1)] in
  let one := constant 1 in
  map neg [z; sub (var i) z; sub (var j) z; add (sub (sub z (var i)) (var j)) one;
           sub (sub (add (var i) (var j)) z) z; add (add (sub (sub one (var i)) (var j)) z) z].
Definition clause_polys (n : nat) (c : list lit) : list poly :=
  match c with
  | [] => [constant 1]
  | _ =>
      let cl := fold_left (fun cl l => add cl (lit_value l)) c (constant (-1)) in
      neg cl :: flat_map (fun j => [neg (mul_linear cl (var j)); neg (mul_linear cl (sub (constant 1) (var j)))]) (seq 0 n)
  end.
Definition lift_polys (n : nat) (clauses : list (list lit)) : list poly :=
  flat_map (fun i => [neg (var i); neg (sub (constant 1) (var i))]) (seq 0 n) ++
  flat_map (fun i => flat_map (fun j => pair_polys i j) (seq (S i) (n - S i))) (seq 0 n) ++
  flat_map (clause_polys n) clauses.
(** [farkas_refute] (212-247). *)
Definition coeff (r : row) (v : nat) : Z := get Nat.eqb v (coeffs r).
Definition contradiction (rows : list row) : option nmap :=
  match find (fun r => match coeffs r with [] => 0 <? rconst r | _ => false end) rows with Some r => Some (prov r) | None => None end.
Fixpoint combos (v : nat) (pairs : list (row * row)) (next : list row) : option (list row) :=
  match pairs with
  | [] => Some next
  | (p, n) :: pairs =>
      match combine p (- coeff n v) n (coeff p v) with
      | None => None
      | Some r => let next := next ++ [r] in if row_cap <? Z.of_nat (length next) then None else combos v pairs next
      end
  end.
Fixpoint eliminate (vs : list nat) (rows : list row) : option nmap :=
  match vs with
  | [] => contradiction rows
  | v :: vs =>
      let pos := filter (fun r => 0 <? coeff r v) rows in
      let ng := filter (fun r => coeff r v <? 0) rows in
      match combos v (list_prod pos ng) (filter (fun r => coeff r v =? 0) rows) with
      | None => None
      | Some rows => match contradiction rows with Some p => Some p | None => eliminate vs rows end
      end
  end.
Definition farkas_refute (rows : list row) (var_count : nat) : option nmap :=
  match contradiction rows with Some p => Some p | None => eliminate (seq 0 var_count) rows end.
(** [sos_certificate] (259-268), [sos_refutes] (252-254). *)
Fixpoint rows_from (n idx : nat) (ps : list poly) : list row :=
  match ps with [] => [] | p :: ps => poly_to_row p n idx :: rows_from n (S idx) ps end.
Definition sos_certificate (n : nat) (clauses : list (list lit)) : option nmap :=
  if Nat.ltb max_vars n then None else farkas_refute (rows_from n 0 (lift_polys n clauses)) (n + n * n).
Definition sos_refutes (n : nat) (clauses : list (list lit)) : bool := match sos_certificate n clauses with Some _ => true | None => false end.
(** [check_sos_certificate] (277-298). *)
Fixpoint accumulate (polys : list poly) (cert : nmap) (s : poly) : option poly :=
  match cert with
  | [] => Some s
  | (i, mult) :: cert =>
      if mult <? 0 then None
      else match nth_error polys i with
           | None => None
           | Some p => accumulate polys cert (Poly (pc s + mult * pc p) (scaled Nat.eqb mult (lin s) (lin p)) (scaled pair_eqb mult (quad s) (quad p)))
           end
  end.
Definition check_sos_certificate (n : nat) (clauses : list (list lit)) (cert : nmap) : bool :=
  match cert with
  | [] => false
  | _ =>
      match accumulate (lift_polys n clauses) cert (constant 0) with
      | None => false
      | Some s => forallb (fun kv => snd kv =? 0) (lin s) && forallb (fun kv => snd kv =? 0) (quad s) && (0 <? pc s)
      end
  end.

(** [check_sos_certificate] (277-298) compiled without overflow checks: the [i128] sums are taken modulo 2^128.  Reduction commutes with the
    sums and products, so it is applied to the results. *)
Definition wrap128 (z : Z) : Z := (z + 2 ^ 127) mod 2 ^ 128 - 2 ^ 127.
Definition check_wrapped (n : nat) (clauses : list (list lit)) (cert : nmap) : bool :=
  match cert with
  | [] => false
  | _ =>
      match accumulate (lift_polys n clauses) cert (constant 0) with
      | None => false
      | Some s => forallb (fun kv => wrap128 (snd kv) =? 0) (lin s) && forallb (fun kv => wrap128 (snd kv) =? 0) (quad s) && (0 <? wrap128 (pc s))
      end
  end.
