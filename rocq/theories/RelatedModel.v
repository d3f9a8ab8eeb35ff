(** Polynomials modulo N and the related-message attack: [/repo/crates/logicaffeine_proof/src/factor.rs] lines 457-539;
    certified minimisation: [optimize.rs] lines 27-58.

    The two while loops of the polynomial routines need not end, so they take fuel: the outer [None] means that the fuel ran
    out, the inner one is the code's [None].  Slices are lists. *)
From Coq Require Import List ZArith Bool.
From Verif Require Import FactorModel.
Import ListNotations.
Open Scope Z_scope.

(** [poly_norm_mod] (457-466). *)
Fixpoint pop_zeros (rv : list Z) : list Z :=
  match rv with [] => [] | [c] => [c] | c :: rest => if c =? 0 then pop_zeros rest else rv end.
Definition poly_norm_mod (p : list Z) (n : Z) : list Z :=
  let v := rev (pop_zeros (rev (map (fun c => pos_rem c n) p))) in match v with [] => [0] | _ => v end.
Fixpoint set_nth (l : list Z) (k : nat) (v : Z) : list Z :=
  match l, k with [], _ => [] | _ :: l, O => v :: l | x :: l, S k => x :: set_nth l k v end.
(** [poly_mul_mod] (468-476). *)
Fixpoint mul_row (n ai : Z) (b : list Z) (k : nat) (out : list Z) : list Z :=
  match b with [] => out | bj :: b => mul_row n ai b (S k) (set_nth out k (pos_rem (nth k out 0 + ai * bj) n)) end.
Fixpoint mul_rows (n : Z) (a b : list Z) (i : nat) (out : list Z) : list Z :=
  match a with [] => out | ai :: a => mul_rows n a b (S i) (mul_row n ai b i out) end.
Definition poly_mul_mod (a b : list Z) (n : Z) : list Z :=
  poly_norm_mod (mul_rows n a b 0 (repeat 0 (length a + length b - 1))) n.
(** [poly_rem_mod] (480-498). *)
Fixpoint sub_mul (n f : Z) (r b : list Z) : list Z :=
  match r, b with x :: r, y :: b => pos_rem (x - f * y) n :: sub_mul n f r b | r, _ => r end.
Definition rem_step (b : list Z) (lead_inv n : Z) (r : list Z) : list Z :=
  let dr := (length r - 1)%nat in
  let factor := pos_rem (nth dr r 0 * lead_inv) n in
  let shift := (dr - (length b - 1))%nat in
  poly_norm_mod (firstn shift r ++ sub_mul n factor (skipn shift r) b) n.
Fixpoint rem_loop (fuel : nat) (b : list Z) (lead_inv n : Z) (r : list Z) : option (list Z) :=
  match fuel with
  | O => None
  | S fuel => if (length b - 1 <? length r)%nat then rem_loop fuel b lead_inv n (rem_step b lead_inv n r) else Some r
  end.
Definition poly_rem_mod (fuel : nat) (a b : list Z) (n : Z) : option (option (list Z)) :=
  let b := poly_norm_mod b n in
  if forallb (fun c => c =? 0) b then Some None
  else match mod_inverse (nth (length b - 1) b 0) n with
       | None => Some None
       | Some inv => match rem_loop fuel b inv n (poly_norm_mod a n) with Some r => Some (Some r) | None => None end
       end.
(** [poly_gcd_mod] (501-510). *)
Definition is_zero_poly (b : list Z) : bool := match b with [c] => c =? 0 | _ => false end.
Fixpoint gcd_steps (steps fuel : nat) (a b : list Z) (n : Z) : option (option (list Z)) :=
  match steps with
  | O => None
  | S steps => if is_zero_poly b then Some (Some a)
               else match poly_rem_mod fuel a b n with
                    | Some (Some r) => gcd_steps steps fuel b r n
                    | Some None => Some None
                    | None => None
                    end
  end.
Definition poly_gcd_mod (fuel : nat) (a b : list Z) (n : Z) : option (option (list Z)) :=
  gcd_steps fuel fuel (poly_norm_mod a n) (poly_norm_mod b n) n.
(** [franklin_reiter_attack] (517-539): the two polynomials, then the attack. *)
Definition fr_g1 (e : nat) (c1 n : Z) : list Z := set_nth (set_nth (repeat 0 (e + 1)) 0 (pos_rem (- c1) n)) e 1.
Fixpoint fr_power (k : nat) (xr g : list Z) (n : Z) : list Z :=
  match k with O => g | S k => fr_power k xr (poly_mul_mod g xr n) n end.
Definition fr_g2 (e : nat) (r c2 n : Z) : list Z :=
  let g := fr_power e [pos_rem r n; 1] [1] n in set_nth g 0 (pos_rem (nth 0 g 0 - c2) n).
Definition franklin_reiter (fuel : nat) (e : nat) (r c1 c2 n : Z) : option (option Z) :=
  match poly_gcd_mod fuel (fr_g1 e c1 n) (fr_g2 e r c2 n) n with
  | None => None
  | Some None => Some None
  | Some (Some g) =>
      Some (match g with
            | [g0; g1] => match mod_inverse g1 n with
                          | Some inv => let m := pos_rem (- g0 * inv) n in
                                        if modpow m (Z.of_nat e) n =? pos_rem c1 n then Some m else None
                          | None => None
                          end
            | _ => None
            end)
  end.

(** [minimize_certified] (optimize.rs 27-58): [decide b] is the outcome of [prove_unsat (feasible_at b)]; bounds are [Z]. *)
Inductive outcome (W : Type) := Sat (w : W) | Refuted | Unsupported.
Arguments Sat {W}. Arguments Refuted {W}. Arguments Unsupported {W}.
Record min_result (W : Type) := { optimum : Z; witness : W; minimal_certified : bool }.
Arguments optimum {W}. Arguments witness {W}. Arguments minimal_certified {W}.
Fixpoint search {W} (fuel : nat) (decide : Z -> outcome W) (l h : Z) : option Z :=
  match fuel with
  | O => Some l
  | S fuel => if l <? h then
                let mid := l + Z.quot (h - l) 2 in
                match decide mid with
                | Sat _ => search fuel decide l mid
                | Refuted => search fuel decide (mid + 1) h
                | Unsupported => None
                end
              else Some l
  end.
Definition minimize_certified {W} (decide : Z -> outcome W) (lo hi : Z) : option (min_result W) :=
  if hi <? lo then None
  else match decide hi with
       | Sat _ =>
           match search (Z.to_nat (hi - lo)) decide lo hi with
           | None => None
           | Some opt => match decide opt with
                         | Sat w => Some {| optimum := opt; witness := w;
                                            minimal_certified := (opt <=? lo) || match decide (opt - 1) with Refuted => true | _ => false end |}
                         | _ => None
                         end
           end
       | _ => None
       end.
