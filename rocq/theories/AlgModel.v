(* Elimination over GF(2), algebraic recurrences and annihilators of
   /repo/crates/logicaffeine_base/src/describe.rs:906-1038 and 1263-1386.

   A row of bit words is a list of bits of the given width; usize::MAX in the pivot
   table is None. *)
From Coq Require Import List Lia Bool Arith.
Import ListNotations.

Fixpoint upd {A} (l : list A) (i : nat) (v : A) : list A :=
  match l, i with
  | [], _ => []
  | _ :: l, O => v :: l
  | x :: l, S i => x :: upd l i v
  end.

(* describe.rs:909-919 (monomials::combos): k more variables from start on *)
Fixpoint combos (k start l : nat) (cur : list nat) : list (list nat) :=
  match k with
  | O => [cur]
  | S k => flat_map (fun v => combos k (v + 1) l (cur ++ [v])) (seq start (l - start))
  end.
(* describe.rs:908-925 (monomials) *)
Definition monomials (l d : nat) : list (list nat) :=
  [] :: flat_map (fun k => combos k 0 l []) (seq 1 (Nat.min d l)).
(* describe.rs:928-930 (eval_monomial) *)
Definition eval_monomial (mono : list nat) (window : list bool) : bool := forallb (fun v => nth v window false) mono.

(* The elimination loop, written twice in the code (describe.rs:937-957 with a right
   hand side in the row, 1275-1295 without): rows of any type with bits and addition *)
Section elimination.
Context {R : Type} (bit : R -> nat -> bool) (xor : R -> R -> R) (dflt : R).
Fixpoint find_row (mat : list R) (c : nat) (is : list nat) : option nat :=
  match is with
  | [] => None
  | i :: is => if bit (nth i mat dflt) c then Some i else find_row mat c is
  end.
Definition swap (mat : list R) (i j : nat) : list R :=
  upd (upd mat i (nth j mat dflt)) j (nth i mat dflt).
Definition clear (mat : list R) (r c : nat) : list R :=
  fold_left (fun mat i => if negb (i =? r) && bit (nth i mat dflt) c
                          then upd mat i (xor (nth i mat dflt) (nth r mat dflt)) else mat)
    (seq 0 (length mat)) mat.
Record elim := mk { mat : list R; pivot : list (option nat); rank : nat }.
Definition elim_step (st : elim) (c : nat) : elim :=
  match find_row (mat st) c (seq (rank st) (length (mat st) - rank st)) with
  | None => st
  | Some pr => mk (clear (swap (mat st) (rank st) pr) (rank st) c) (upd (pivot st) c (Some (rank st))) (rank st + 1)
  end.
Definition eliminate (rows : list R) (ncols : nat) : elim :=
  fold_left elim_step (seq 0 ncols) (mk rows (repeat None ncols) 0).
End elimination.

Definition xor_bits (a b : list bool) : list bool := map (fun '(x, y) => xorb x y) (combine a b).
Definition arow := (list bool * bool)%type.
Definition arow_bit (r : arow) (c : nat) : bool := nth c (fst r) false.
Definition arow_xor (a b : arow) : arow := (xor_bits (fst a) (fst b), xorb (snd a) (snd b)).
Definition arow_dflt : arow := ([], false).

(* describe.rs:936-970 (solve_gf2_system) *)
Definition solve_gf2_system (rows : list arow) (ncols : nat) : option (list bool) :=
  let st := eliminate arow_bit arow_xor arow_dflt rows ncols in
  if existsb (fun r => snd r && forallb negb (fst r)) (mat st) then None
  else Some (map (fun p => match p with Some i => snd (nth i (mat st) arow_dflt) | None => false end) (pivot st)).

(* describe.rs:1274-1311 (gf2_kernel_basis) *)
Definition row_bit (r : list bool) (c : nat) : bool := nth c r false.
Definition gf2_kernel_basis (rows : list (list bool)) (ncols : nat) : list (list bool) :=
  let st := eliminate row_bit xor_bits [] rows ncols in
  map (fun free =>
         map (fun '(c, p) => match p with
                             | Some i => row_bit (nth i (mat st) []) free
                             | None => c =? free
                             end) (combine (seq 0 ncols) (pivot st)))
      (List.filter (fun c => match nth c (pivot st) None with None => true | Some _ => false end) (seq 0 ncols)).

(* describe.rs:1008-1023 (algebraic_generate); None is an index out of bounds *)
Definition window_at (out : list bool) (i l : nat) : option (list bool) :=
  if (l =? 0) || (i - 1 <? length out) then Some (map (fun v => nth (i - 1 - v) out false) (seq 0 l)) else None.
Definition feedback (monos : list (list nat)) (coeffs window : list bool) : bool :=
  fold_left (fun bit '(mi, mono) => if nth mi coeffs false && eval_monomial mono window then xorb bit true else bit)
    (combine (seq 0 (length monos)) monos) false.
Fixpoint algebraic_replay (monos : list (list nat)) (l : nat) (coeffs : list bool) (is : list nat) (out : list bool) : option (list bool) :=
  match is with
  | [] => Some out
  | i :: is => match window_at out i l with
               | Some w => algebraic_replay monos l coeffs is (out ++ [feedback monos coeffs w])
               | None => None
               end
  end.
Definition algebraic_generate (l d : nat) (coeffs seed : list bool) (total : nat) : option (list bool) :=
  option_map (firstn total) (algebraic_replay (monomials l d) l coeffs (seq l (total - l)) (firstn l seed)).

Fixpoint bits_eqb (a b : list bool) : bool :=
  match a, b with
  | [], [] => true
  | x :: a, y :: b => Bool.eqb x y && bits_eqb a b
  | _, _ => false
  end.
(* describe.rs:979-1003 (detect_algebraic_recurrence); the outer None is a panic *)
Definition detect_algebraic_recurrence (bits : list bool) (l d : nat) : option (option (list bool)) :=
  if (l =? 0) || (length bits <=? l) then Some None
  else
    let monos := monomials l d in
    let rows := map (fun i => let w := map (fun v => nth (i - 1 - v) bits false) (seq 0 l) in
                              (map (fun mono => eval_monomial mono w) monos, nth i bits false))
                    (seq l (length bits - l)) in
    match solve_gf2_system rows (length monos) with
    | None => Some None
    | Some coeffs => match algebraic_generate l d coeffs (firstn l bits) (length bits) with
                     | None => None
                     | Some out => if bits_eqb out bits then Some (Some coeffs) else Some None
                     end
    end.
(* describe.rs:1029-1037 (algebraic_complexity) *)
Fixpoint complexity_loop (bits : list bool) (d : nat) (ls : list nat) : option (option (nat * nat)) :=
  match ls with
  | [] => Some None
  | l :: ls => match detect_algebraic_recurrence bits l d with
               | None => None
               | Some (Some coeffs) => Some (Some (l, Nat.max (length (List.filter (fun c => c) coeffs)) 1))
               | Some None => complexity_loop bits d ls
               end
  end.
Definition algebraic_complexity (bits : list bool) (d : nat) : option (option (nat * nat)) :=
  complexity_loop bits d (seq 1 (length bits / 2)).

(* the bits of a point of 0..2^n *)
Definition point (n x : nat) : list bool := map (fun i => Nat.testbit x i) (seq 0 n).
(* describe.rs:1318-1336 (annihilator_basis) *)
Definition annihilator_basis (n d : nat) (zero_set : list nat) : list (list bool) :=
  let monos := monomials n d in
  gf2_kernel_basis (map (fun x => map (fun mono => eval_monomial mono (point n x)) monos) zero_set) (length monos).
(* describe.rs:1339-1341 (annihilator) *)
Definition annihilator (n d : nat) (zero_set : list nat) : option (list bool) := hd_error (annihilator_basis n d zero_set).

Definition is_power_of_two (n : nat) : bool := negb (n =? 0) && (2 ^ Nat.log2 n =? n).
(* describe.rs:1264-1269 (AnnihilatorWitness) *)
Record witness := wit { n_vars : nat; degree : nat; coeffs : list bool; annihilates_complement : bool }.
(* describe.rs:1347-1363 (algebraic_immunity) *)
Fixpoint immunity_loop (n : nat) (support zeros : list nat) (ds : list nat) : option (nat * witness) :=
  match ds with
  | [] => None
  | d :: ds =>
    match annihilator n d support with
    | Some g => Some (d, wit n d g false)
    | None => match annihilator n d zeros with
              | Some g => Some (d, wit n d g true)
              | None => immunity_loop n support zeros ds
              end
    end
  end.
Definition algebraic_immunity (truth : list bool) : option (nat * witness) :=
  if (length truth =? 0) || negb (is_power_of_two (length truth)) then None
  else
    let n := Nat.log2 (length truth) in
    let support := List.filter (fun x => nth x truth false) (seq 0 (length truth)) in
    let zeros := List.filter (fun x => negb (nth x truth false)) (seq 0 (length truth)) in
    immunity_loop n support zeros (seq 0 (n + 1)).

(* describe.rs:1366-1373 (eval_anf) *)
Definition eval_anf (coeffs : list bool) (n_vars degree x : nat) : bool :=
  feedback (monomials n_vars degree) coeffs (point n_vars x).
(* describe.rs:1378-1386 (verify_annihilator) *)
Definition verify_annihilator (truth : list bool) (w : witness) : bool :=
  if forallb negb (coeffs w) || negb (length (monomials (n_vars w) (degree w)) =? length (coeffs w)) then false
  else forallb (fun x =>
         let must_vanish := if annihilates_complement w then negb (nth x truth false) else nth x truth false in
         negb must_vanish || negb (eval_anf (coeffs w) (n_vars w) (degree w) x)) (seq 0 (length truth)).
