(** Integer number theory and factoring: [/repo/crates/logicaffeine_proof/src/factor.rs] lines 19-455.

    [BigInt] is [Z]; its [div_rem] is [Z.quot]/[Z.rem] (truncating, as shown for the numeric tower). Loops get a number
    of rounds that is shown never to be used up, except [next_prime], whose rounds are a parameter. The floating-point
    starting values of [isqrt] and [integer_nth_root] are arbitrary positive integers. Not modelled: [u64] overflow of
    the trial divisor. *)
From Coq Require Import List ZArith Bool.
Import ListNotations.
Open Scope Z_scope.

(** [MR_BASES] (22). *)
Definition mr_bases : list Z := [2; 3; 5; 7; 11; 13; 17; 19; 23; 29; 31; 37].
(** [rem] (33-35). *)
Definition rem (a m : Z) : Z := Z.rem a m.
(** [gcd] (38-46). *)
Fixpoint gcd_loop (fuel : nat) (a b : Z) : Z :=
  match fuel with
  | O => a
  | S fuel => if b =? 0 then a else gcd_loop fuel b (rem a b)
  end.
Definition gcd (a b : Z) : Z := gcd_loop (S (Z.abs_nat b)) (Z.abs a) (Z.abs b).
(** [mod_inverse] (49-68). *)
Fixpoint inv_loop (fuel : nat) (old_r r old_s s : Z) : Z * Z :=
  match fuel with
  | O => (old_r, old_s)
  | S fuel => if r =? 0 then (old_r, old_s)
              else inv_loop fuel r (Z.rem old_r r) s (old_s - Z.quot old_r r * s)
  end.
Definition mod_inverse (a m : Z) : option Z :=
  let '(g, s) := inv_loop (S (Z.abs_nat m)) (rem a m) m 1 0 in
  if g =? 1 then let res := rem s m in Some (if res <? 0 then res + m else res) else None.
(** [modpow] (72-89). *)
Fixpoint modpow_loop (fuel : nat) (b e result m : Z) : Z :=
  match fuel with
  | O => result
  | S fuel => if e =? 0 then result
              else modpow_loop fuel (rem (b * b) m) (Z.quot e 2) (if negb (Z.rem e 2 =? 0) then rem (result * b) m else result) m
  end.
Definition modpow (base exp m : Z) : Z :=
  if m =? 1 then 0 else modpow_loop (Z.to_nat (Z.log2 exp + 1)) (rem base m) exp 1 m.
(** [isqrt] (94-119). *)
Fixpoint isqrt_up (fuel : nat) (x n : Z) : Z :=
  match fuel with O => x | S fuel => if x * x <? n then isqrt_up fuel (x * 2) n else x end.
Fixpoint isqrt_newton (fuel : nat) (n x : Z) : Z :=
  match fuel with
  | O => x
  | S fuel => let q := Z.quot n x in let y := Z.quot (x + q) 2 in
              if x <=? y then x else isqrt_newton fuel n y
  end.
Definition isqrt (seed : Z -> Z) (n : Z) : Z :=
  if n <=? 0 then 0
  else let x := isqrt_up (Z.to_nat (Z.log2_up n)) (seed n) n in isqrt_newton (Z.to_nat x) n x.
(** [is_probable_prime] (122-159): the split of [n-1], one base, all bases. *)
Fixpoint odd_part (fuel : nat) (d : Z) (s : nat) : Z * nat :=
  match fuel with O => (d, s) | S fuel => if Z.odd d then (d, s) else odd_part fuel (Z.quot d 2) (S s) end.
Fixpoint mr_squares (k : nat) (x n : Z) : bool :=
  match k with
  | O => false
  | S k => let x := rem (x * x) n in if x =? n - 1 then true else mr_squares k x n
  end.
Definition mr_base (n d : Z) (s : nat) (a : Z) : bool :=
  if rem a n =? 0 then true
  else let x := modpow a d n in
       if (x =? 1) || (x =? n - 1) then true else mr_squares (s - 1) x n.
Definition is_probable_prime (n : Z) : bool :=
  if n <? 2 then false else if n =? 2 then true else if negb (Z.odd n) then false
  else let '(d, s) := odd_part (Z.to_nat (Z.log2 n + 1)) (n - 1) 0 in forallb (mr_base n d s) mr_bases.
(** [next_prime] (162-174), with at most [fuel] candidates tried. *)
Fixpoint next_loop (fuel : nat) (c : Z) : option Z :=
  match fuel with O => None | S fuel => if is_probable_prime c then Some c else next_loop fuel (c + 2) end.
Definition next_prime (fuel : nat) (start : Z) : option Z :=
  if start <=? 2 then Some 2 else next_loop fuel (if Z.odd start then start else start + 1).
(** [verify_factorization] (177-180), [split] (182-191). *)
Definition verify_factorization (n p q : Z) : bool := (p * q =? n) && (1 <? p) && (1 <? q) && (p <? n) && (q <? n).
Definition split (n d : Z) : option (Z * Z) :=
  if (1 <? d) && (d <? n) then if Z.rem n d =? 0 then Some (d, Z.quot n d) else None else None.
(** [trial_division] (194-207); [fuel] at least the number of divisors up to the limit. *)
Fixpoint trial_loop (fuel : nat) (n limit d : Z) : option (Z * Z) :=
  match fuel with
  | O => None
  | S fuel => if d <=? limit then
                if n <? d * d then None
                else match split n d with Some f => Some f | None => trial_loop fuel n limit (d + if d =? 2 then 1 else 2) end
              else None
  end.
Definition trial_division (n limit : Z) : option (Z * Z) := trial_loop (Z.to_nat limit) n limit 2.
(** [fermat] (212-234). *)
Fixpoint fermat_loop (iters : nat) (seed : Z -> Z) (n a : Z) : option (Z * Z) :=
  match iters with
  | O => None
  | S iters =>
      let b2 := a * a - n in let b := isqrt seed b2 in
      if (b * b =? b2) && verify_factorization n (a - b) (a + b) then Some (a - b, a + b) else fermat_loop iters seed n (a + 1)
  end.
Definition fermat (seed : Z -> Z) (n : Z) (max_iters : nat) : option (Z * Z) :=
  if negb (Z.odd n) then split n 2
  else let a := isqrt seed n in fermat_loop max_iters seed n (if a * a <? n then a + 1 else a).
(** [pollard_rho] (238-252). *)
Fixpoint rho_loop (iters : nat) (n x y d : Z) : Z :=
  match iters with
  | O => d
  | S iters => if d =? 1 then
                 let f := fun x => rem (x * x + 1) n in
                 let x := f x in let y := f (f y) in rho_loop iters n x y (gcd (Z.abs (x - y)) n)
               else d
  end.
Definition pollard_rho (n : Z) (max_iters : nat) : option (Z * Z) :=
  if negb (Z.odd n) then split n 2 else split n (rho_loop max_iters n 2 2 1).
(** [pollard_p_minus_1] (258-269): [k] runs over [2..=bound]. *)
Fixpoint p1_loop (rounds : nat) (n bound k a : Z) : option (Z * Z) :=
  match rounds with
  | O => split n (gcd (a - 1) n)
  | S rounds =>
      let a := modpow a k n in
      match (if (k mod 16 =? 0) || (k =? bound) then split n (gcd (a - 1) n) else None) with
      | Some f => Some f
      | None => p1_loop rounds n bound (k + 1) a
      end
  end.
Definition pollard_p_minus_1 (n bound : Z) : option (Z * Z) := p1_loop (Z.to_nat (bound - 1)) n bound 2 2.
(** [wiener] (276-313). *)
Fixpoint wiener_loop (rounds : nat) (seed : Z -> Z) (e n num den h2 h1 k2 k1 : Z) : option (Z * Z) :=
  match rounds with
  | O => None
  | S rounds =>
      if den =? 0 then None
      else
        let a := Z.quot num den in let r := Z.rem num den in
        let h := a * h1 + h2 in let k := a * k1 + k2 in
        let attempt :=
          if h =? 0 then None
          else if Z.rem (e * k - 1) h =? 0 then
            let phi := Z.quot (e * k - 1) h in
            let s := n - phi + 1 in let disc := s * s - 4 * n in
            if disc <? 0 then None
            else let sq := isqrt seed disc in
                 if sq * sq =? disc then
                   let p := Z.quot (s - sq) 2 in let q := Z.quot (s + sq) 2 in
                   if verify_factorization n p q then Some (p, q) else None
                 else None
          else None in
        match attempt with
        | Some f => Some f
        | None => wiener_loop rounds seed e n den r h1 h k1 k
        end
  end.
Definition wiener (seed : Z -> Z) (e n : Z) : option (Z * Z) := wiener_loop (Z.to_nat 2000) seed e n e n 0 1 1 0.
(** [pos_rem] (324-331). *)
Definition pos_rem (a m : Z) : Z := let r := rem a m in if r <? 0 then r + m else r.
(** [crt] (335-352). *)
Fixpoint crt_loop (l : list (Z * Z)) (x m : Z) : option Z :=
  match l with
  | [] => Some x
  | (ri, mi) :: l =>
      match mod_inverse (pos_rem m mi) mi with
      | None => None
      | Some inv =>
          let diff := pos_rem (ri - x) mi in
          let t := pos_rem (diff * inv) mi in
          let m' := m * mi in
          crt_loop l (pos_rem (x + m * t) m') m'
      end
  end.
Definition crt (residues moduli : list Z) : option Z :=
  match residues, moduli with
  | r :: rs, m :: ms => if (length rs =? length ms)%nat then crt_loop (combine rs ms) (pos_rem r m) m else None
  | _, _ => None
  end.
(** [integer_nth_root] (355-392). *)
Fixpoint root_up (fuel : nat) (n : Z) (x r : Z) : Z :=
  match fuel with O => r | S fuel => if r ^ n <? x then root_up fuel n x (r * 2) else r end.
Fixpoint root_newton (fuel : nat) (n : Z) (x r : Z) : Z :=
  match fuel with
  | O => r
  | S fuel => let q := Z.quot x (r ^ (n - 1)) in
              let next := Z.quot ((n - 1) * r + q) n in
              if r <=? next then r else root_newton fuel n x next
  end.
Fixpoint root_down (fuel : nat) (n : Z) (x r : Z) : Z :=
  match fuel with O => r | S fuel => if x <? r ^ n then root_down fuel n x (r - 1) else r end.
Fixpoint root_fix (fuel : nat) (n : Z) (x r : Z) : Z :=
  match fuel with O => r | S fuel => if (r + 1) ^ n <=? x then root_fix fuel n x (r + 1) else r end.
Definition integer_nth_root (seed : Z -> Z -> Z) (x n : Z) : Z :=
  if (n =? 0) || (x <? 0) then 0
  else if (n =? 1) || (x =? 0) then x
  else
    let r := root_up (Z.to_nat (Z.log2_up x)) n x (seed x n) in
    let r := root_newton (Z.to_nat r) n x r in
    let r := root_down (Z.to_nat r) n x r in
    root_fix (Z.to_nat x) n x r.
(** [hastad_broadcast_attack] (398-405). *)
Definition hastad_broadcast_attack (seed : Z -> Z -> Z) (e : nat) (ciphertexts moduli : list Z) : option Z :=
  if (length ciphertexts <? e)%nat then None
  else match crt ciphertexts moduli with
       | None => None
       | Some c => let m := integer_nth_root seed c (Z.of_nat e) in if m ^ Z.of_nat e =? c then Some m else None
       end.
(** [ext_gcd] (410-428). *)
Fixpoint ext_loop (fuel : nat) (old_r r old_s s old_t t : Z) : Z * Z * Z :=
  match fuel with
  | O => (old_r, old_s, old_t)
  | S fuel => if r =? 0 then (old_r, old_s, old_t)
              else let q := Z.quot old_r r in ext_loop fuel r (old_r - q * r) s (old_s - q * s) t (old_t - q * t)
  end.
Definition ext_gcd (a b : Z) : Z * Z * Z := ext_loop (S (Z.abs_nat b)) a b 1 0 0 1.
(** [common_modulus_attack] (432-448). *)
Definition signed_pow (c a n : Z) : option Z :=
  if a <? 0 then match mod_inverse c n with Some i => Some (modpow i (- a) n) | None => None end
  else Some (modpow c a n).
Definition common_modulus_attack (e1 e2 c1 c2 n : Z) : option Z :=
  let '(g, a, b) := ext_gcd e1 e2 in
  if negb (g =? 1) then None
  else match signed_pow c1 a n with
       | None => None
       | Some t1 => match signed_pow c2 b n with None => None | Some t2 => Some (rem (t1 * t2) n) end
       end.
(** [low_exponent_message] (452-455). *)
Definition low_exponent_message (seed : Z -> Z -> Z) (c : Z) (e : nat) : option Z :=
  let m := integer_nth_root seed c (Z.of_nat e) in if m ^ Z.of_nat e =? c then Some m else None.
