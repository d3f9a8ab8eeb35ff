(** Multiplicative order and factoring by order finding: [/repo/crates/logicaffeine_proof/src/period.rs] lines 21-160.

    Simplified: [u64] exponents are [Z] without overflow (only the base draw of [factor_via_order] wraps); the byte key
    of a residue is the residue; the floating-point square root of the bound is a parameter [m]. *)
From Coq Require Import List ZArith Bool.
From Verif Require Import FactorModel.
Import ListNotations.
Open Scope Z_scope.

(** [rem_pos] (26-33); [mulmod] (36-38). *)
Definition rem_pos (a n : Z) : Z := if n =? 0 then a else let r := Z.rem a n in if r <? 0 then r + n else r.
Definition mulmod (a b n : Z) : Z := rem_pos (a * b) n.
(** [distinct_primes] (47-63). *)
Fixpoint strip (fuel : nat) (r d : Z) : Z :=
  match fuel with O => r | S fuel => if Z.rem r d =? 0 then strip fuel (Z.quot r d) d else r end.
Fixpoint primes_loop (fuel : nat) (r d : Z) (ps : list Z) : list Z :=
  match fuel with
  | O => ps
  | S fuel => if d * d <=? r then
                if Z.rem r d =? 0 then primes_loop fuel (strip (Z.to_nat r) r d) (d + 1) (ps ++ [d])
                else primes_loop fuel r (d + 1) ps
              else if 1 <? r then ps ++ [r] else ps
  end.
Definition distinct_primes (r : Z) : list Z := primes_loop (S (Z.to_nat r)) r 2 [].
(** [reduce_to_order] (67-75). *)
Fixpoint reduce_prime (fuel : nat) (a r n p : Z) : Z :=
  match fuel with
  | O => r
  | S fuel => if (Z.rem r p =? 0) && (modpow a (Z.quot r p) n =? 1) then reduce_prime fuel a (Z.quot r p) n p else r
  end.
Definition reduce_to_order (a r n : Z) : Z := fold_left (fun r p => reduce_prime (Z.to_nat r) a r n p) (distinct_primes r) r.
(** [multiplicative_order] (80-116): baby steps, then giant steps. *)
Fixpoint lookup (k : Z) (t : list (Z * Z)) : option Z :=
  match t with [] => None | (k', v) :: t => if k =? k' then Some v else lookup k t end.
Fixpoint baby_loop (steps : nat) (j cur a n : Z) (t : list (Z * Z)) : Z + (list (Z * Z) * Z) :=
  match steps with
  | O => inr (t, cur)
  | S steps => if (0 <? j) && (cur =? 1) then inl j
               else baby_loop steps (j + 1) (mulmod cur a n) a n (match lookup cur t with Some _ => t | None => (cur, j) :: t end)
  end.
Fixpoint giant_loop (steps : nat) (k gk giant a n m : Z) (t : list (Z * Z)) : option Z :=
  match steps with
  | O => None
  | S steps =>
      match (match lookup gk t with
             | Some idx => let cand := k * m - idx in if 0 <? cand then Some (reduce_to_order a cand n) else None
             | None => None
             end) with
      | Some r => Some r
      | None => giant_loop steps (k + 1) (mulmod gk giant n) giant a n m t
      end
  end.
Definition multiplicative_order (a n m : Z) : option Z :=
  if negb (gcd a n =? 1) then None
  else let a := rem_pos a n in
       if a =? 1 then Some 1
       else match baby_loop (Z.to_nat m) 0 1 a n [] with
            | inl j => Some j
            | inr (t, giant) => giant_loop (Z.to_nat m) 1 giant giant a n m t
            end.
(** [factor_from_order] (121-137). *)
Definition factor_from_order (a r n : Z) : option Z :=
  if negb (Z.rem r 2 =? 0) then None
  else let root := modpow a (Z.quot r 2) n in
       if (root =? 1) || (root =? n - 1) then None
       else let g := gcd (root - 1) n in
            if negb (g =? 1) && negb (g =? n) then Some g
            else let g := gcd (root + 1) n in
                 if negb (g =? 1) && negb (g =? n) then Some g else None.
(** [factor_via_order] (143-167), from try [t] on. *)
Definition base_draw (seed t : Z) : Z := 2 + (((seed + t) mod 2 ^ 64) * 2654435761) mod 2 ^ 64 mod 1000000.
Fixpoint via_loop (tries : nat) (t n m seed : Z) : option Z :=
  match tries with
  | O => None
  | S tries =>
      let a := rem_pos (base_draw seed t) n in
      if (a =? 1) || (a =? 0) then via_loop tries (t + 1) n m seed
      else let g := gcd a n in
           if negb (g =? 1) && negb (g =? n) then Some g
           else match (match multiplicative_order a n m with Some r => factor_from_order a r n | None => None end) with
                | Some f => Some f
                | None => via_loop tries (t + 1) n m seed
                end
  end.
Definition factor_via_order (n : Z) (tries : nat) (m seed : Z) : option Z :=
  if negb (Z.odd n) then Some 2 else via_loop tries 0 n m seed.
