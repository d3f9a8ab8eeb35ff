(** Linear algebra over GF(p): crates/logicaffeine_proof/src/modp.rs:1-317. Residues are unbounded
    non-negative integers (u64 overflow of [a + b] and [(a % p) * (b % p)] is not modelled). The
    recovery of a system from a CNF (modp.rs:319-) is not modelled. *)
From Coq Require Import List ZArith Bool Lia.
Import ListNotations.
Open Scope Z_scope.

(** modp.rs:18-21 [ModpEquation]. *)
Record equation := Equation { coeffs : list (nat * Z); rhs : Z }.
(** modp.rs:30-38 [ModpOutcome]. *)
Inductive outcome := Sat (x : list Z) | Unsat (combo : list (nat * Z)).

(** modp.rs:40-51 [add], [sub], [mul]. *)
Definition madd (a b p : Z) : Z := (a + b) mod p.
Definition msub (a b p : Z) : Z := (a + p - b mod p) mod p.
Definition mmul (a b p : Z) : Z := ((a mod p) * (b mod p)) mod p.
(** modp.rs:53-63 [powm]: the loop reads the bits of [e] from the lowest. The last round also squares
    [a], which is not used afterwards. *)
Fixpoint pow_bits (e : positive) (r a p : Z) : Z :=
  match e with
  | xH => mmul r a p
  | xO e => pow_bits e r (mmul a a p) p
  | xI e => pow_bits e (mmul r a p) (mmul a a p) p
  end.
Definition powm (a e p : Z) : Z :=
  match e with
  | Zpos e => pow_bits e (1 mod p) (a mod p) p
  | _ => 1 mod p
  end.
(** modp.rs:66-68 [inv]. *)
Definition inv (a p : Z) : Z := powm a (p - 2) p.

(** One row of the elimination: coefficients, right-hand side, provenance. *)
Record row := Row { rc : list Z; rr : Z; rp : list Z }.
Definition get (l : list Z) (i : nat) : Z := nth i l 0.
Fixpoint set (l : list Z) (i : nat) (x : Z) : list Z :=
  match l, i with
  | [], _ => []
  | _ :: l, O => x :: l
  | y :: l, S i => y :: set l i x
  end.
(** modp.rs:80-86, 192-198. *)
Definition dense (cs : list (nat * Z)) (nv : nat) (p : Z) : list Z :=
  fold_left (fun c va => if Nat.ltb (fst va) nv then set c (fst va) (madd (get c (fst va)) (snd va) p) else c) cs (repeat 0 nv).
(** modp.rs:79-91: [m] is the length of the provenance ([solve_space], modp.rs:190-201, has none: 0). *)
Definition load (nv m : nat) (p : Z) (ieq : nat * equation) : row :=
  Row (dense (coeffs (snd ieq)) nv p) (rhs (snd ieq) mod p) (set (repeat 0 m) (fst ieq) (1 mod p)).
Definition load_all (eqs : list equation) (nv m : nat) (p : Z) : list row :=
  map (load nv m p) (combine (seq 0 (length eqs)) eqs).

(** modp.rs:96 and 206: the first row at or below [r] with a non-zero coefficient in the column. *)
Definition dflt : row := Row [] 0 [].
Definition find_pivot (rows : list row) (r col : nat) : option nat :=
  find (fun i => negb (Z.eqb (get (rc (nth i rows dflt)) col) 0)) (seq r (length rows - r)).
(** modp.rs:99-101: swapping two rows. *)
Definition swap (rows : list row) (a b : nat) : list row :=
  map (fun i => nth (if Nat.eqb i a then b else if Nat.eqb i b then a else i) rows dflt) (seq 0 (length rows)).
(** modp.rs:103-110: normalisation. *)
Definition scale (f : Z) (nv m : nat) (p : Z) (r : row) : row :=
  Row (map (fun v => mmul (get (rc r) v) f p) (seq 0 nv)) (mmul (rr r) f p) (map (fun k => mmul (get (rp r) k) f p) (seq 0 m)).
(** modp.rs:113-123: subtracting [f] times the pivot row. *)
Definition reduce (f : Z) (nv m : nat) (p : Z) (piv r : row) : row :=
  Row (map (fun v => msub (get (rc r) v) (mmul f (get (rc piv) v) p) p) (seq 0 nv))
      (msub (rr r) (mmul f (rr piv) p) p)
      (map (fun k => msub (get (rp r) k) (mmul f (get (rp piv) k) p) p) (seq 0 m)).
Definition clear (rows : list row) (row_ix col nv m : nat) (p : Z) : list row :=
  let swapped := rows in
  let piv0 := nth row_ix swapped dflt in
  let piv := scale (inv (get (rc piv0) col) p) nv m p piv0 in
  map (fun i =>
         let r := nth i swapped dflt in
         if Nat.eqb i row_ix then piv
         else if Z.eqb (get (rc r) col) 0 then r
         else reduce (get (rc r) col) nv m p piv r) (seq 0 (length swapped)).
(** modp.rs:93-130 and 203-226: the loop over the columns. The early exit of [solve] when all rows
    have a pivot changes nothing: no further pivot row is found. *)
Fixpoint eliminate (cols : list nat) (rows : list row) (pivots : list nat) (nv m : nat) (p : Z) : list row * list nat :=
  match cols with
  | [] => (rows, pivots)
  | col :: cols =>
      match find_pivot rows (length pivots) col with
      | None => eliminate cols rows pivots nv m p
      | Some sel => eliminate cols (clear (swap rows (length pivots) sel) (length pivots) col nv m p) (pivots ++ [col]) nv m p
      end
  end.
(** modp.rs:132-139 and 229-233: a zero row with a non-zero right-hand side. *)
Definition bad_row (r : row) : bool := forallb (fun c => Z.eqb c 0) (rc r) && negb (Z.eqb (rr r) 0).
(** modp.rs:135-136. *)
Definition combo_of (r : row) : list (nat * Z) := filter (fun km => negb (Z.eqb (snd km) 0)) (combine (seq 0 (length (rp r))) (rp r)).
(** modp.rs:142-145 and 240-243: free variables are 0, pivot variables take the right-hand side. *)
Definition particular (rows : list row) (pivots : list nat) (nv : nat) : list Z :=
  fold_left (fun x rp => set x (snd rp) (rr (nth (fst rp) rows dflt))) (combine (seq 0 (length pivots)) pivots) (repeat 0 nv).
(** modp.rs:72-147 [solve]. *)
Definition solve (eqs : list equation) (nv : nat) (p : Z) : outcome :=
  let (rows, pivots) := eliminate (seq 0 nv) (load_all eqs nv (length eqs) p) [] nv (length eqs) p in
  match find bad_row rows with
  | Some r => Unsat (combo_of r)
  | None => Sat (particular rows pivots nv)
  end.

(** modp.rs:155-161 [SolutionSpaceP]. *)
Record space := Space { sp_particular : list Z; sp_kernel : list (list Z) }.
(** modp.rs:245-256: the kernel vector of a free column. *)
Definition kernel_vector (rows : list row) (pivots : list nat) (nv f : nat) (p : Z) : list Z :=
  fold_left (fun x rp => set x (snd rp) (msub 0 (get (rc (nth (fst rp) rows dflt)) f) p)) (combine (seq 0 (length pivots)) pivots) (set (repeat 0 nv) f 1).
Definition free_cols (pivots : list nat) (nv : nat) : list nat := filter (fun f => negb (existsb (Nat.eqb f) pivots)) (seq 0 nv).
(** modp.rs:189-259 [solve_space]. *)
Definition solve_space (eqs : list equation) (nv : nat) (p : Z) : option space :=
  let (rows, pivots) := eliminate (seq 0 nv) (load_all eqs nv 0 p) [] nv 0 p in
  match find bad_row rows with
  | Some _ => None
  | None => Some (Space (particular rows pivots nv) (map (fun f => kernel_vector rows pivots nv f p) (free_cols pivots nv)))
  end.
(** modp.rs:163-167 [count]. *)
Definition count (s : space) (p : Z) : Z := p ^ Z.of_nat (length (sp_kernel s)).
(** modp.rs:170-187 [enumerate]. A zero digit skips the addition. *)
Definition add_multiple (nv : nat) (p coef : Z) (x b : list Z) : list Z :=
  if Z.eqb coef 0 then x else map (fun v => madd (get x v) (mmul coef (get b v) p) p) (seq 0 nv).
Fixpoint decode (nv : nat) (p code : Z) (x : list Z) (basis : list (list Z)) : list Z :=
  match basis with
  | [] => x
  | b :: basis => decode nv p (code / p) (add_multiple nv p (code mod p) x b) basis
  end.
Definition enumerate (s : space) (nv : nat) (p : Z) : list (list Z) :=
  map (fun code => decode nv p (Z.of_nat code) (sp_particular s) (sp_kernel s)) (seq 0 (Z.to_nat (count s p))).

(** modp.rs:266-270 [cycle_system]. *)
Definition cycle_system (n : nat) (p : Z) : list equation :=
  map (fun i => Equation [(i, 1); (Nat.modulo (i + 1) n, p - 1)] 1) (seq 0 n).
(** modp.rs:273-282 [satisfies]. *)
Definition lhs_of (e : equation) (x : list Z) (p : Z) : Z := fold_left (fun acc va => madd acc (mmul (snd va) (get x (fst va)) p) p) (coeffs e) 0.
Definition satisfies (eqs : list equation) (x : list Z) (p : Z) : bool := forallb (fun e => Z.eqb (lhs_of e x p) (rhs e mod p)) eqs.
(** modp.rs:286-317 [is_refutation]. *)
Definition add_equation (nv : nat) (p mult : Z) (e : equation) (l : list Z) : list Z :=
  fold_left (fun l va => if Nat.ltb (fst va) nv then set l (fst va) (madd (get l (fst va)) (mmul mult (snd va) p) p) else l) (coeffs e) l.
Fixpoint sum_combo (eqs : list equation) (nv : nat) (p : Z) (combo : list (nat * Z)) (l : list Z) (r : Z) : option (list Z * Z) :=
  match combo with
  | [] => Some (l, r)
  | (i, mult) :: combo =>
      match nth_error eqs i with
      | None => None
      | Some e => sum_combo eqs nv p combo (add_equation nv p mult e l) (madd r (mmul mult (rhs e) p) p)
      end
  end.
Definition is_refutation (eqs : list equation) (nv : nat) (p : Z) (combo : list (nat * Z)) : bool :=
  match combo with
  | [] => false
  | _ =>
      match sum_combo eqs nv p combo (repeat 0 nv) 0 with
      | None => false
      | Some (l, r) => forallb (fun x => Z.eqb x 0) l && negb (Z.eqb r 0)
      end
  end.
