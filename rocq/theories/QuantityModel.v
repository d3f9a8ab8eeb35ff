(** Model of dimensions (crates/logicaffeine_base/src/dimension.rs) and quantities (quantity.rs 17-153). [None] is a panic;
    [i32] arithmetic wraps, as in a release build (a debug build panics instead). *)
From Coq Require Import ZArith List.
From stdpp Require Import list option.
From Verif Require Import MachInt BigIntModel RationalModel.
Open Scope Z_scope.

Definition w32 (x : Z) : Z := (x + 2 ^ 31) mod 2 ^ 32 - 2 ^ 31.
(** dimension.rs 80-89 igcd. The loop takes at most 70 rounds. *)
Fixpoint igcd_loop (n : nat) (a b : Z) : Z := match n with O => a | S n => if b =? 0 then a else igcd_loop n b (Z.rem a b) end.
Definition igcd (a b : Z) : Z := igcd_loop 70 (w32 (Z.abs a)) (w32 (Z.abs b)).
(** 94-161 Exp. *)
Record exponent := Exp { e_num : Z; e_den : Z }.
Definition exp_zero : exponent := Exp 0 1.
Definition exp_one : exponent := Exp 1 1.
Definition exp_new (num den : Z) : option exponent :=
  if den =? 0 then None else
  let '(num, den) := if den <? 0 then (w32 (- num), w32 (- den)) else (num, den) in
  if num =? 0 then Some exp_zero else
  let g := igcd num den in Some (Exp (Z.quot num g) (Z.quot den g)).
Definition exp_int (n : Z) : exponent := Exp n 1.
Definition exp_is_zero (e : exponent) : bool := e_num e =? 0.
Definition exp_add (a b : exponent) : option exponent := exp_new (w32 (w32 (e_num a * e_den b) + w32 (e_num b * e_den a))) (w32 (e_den a * e_den b)).
Definition exp_sub (a b : exponent) : option exponent := exp_new (w32 (w32 (e_num a * e_den b) - w32 (e_num b * e_den a))) (w32 (e_den a * e_den b)).
Definition exp_neg (a : exponent) : exponent := Exp (w32 (- e_num a)) (e_den a).
Definition exp_scale (a : exponent) (k : Z) : option exponent := exp_new (w32 (e_num a * k)) (e_den a).
Definition exp_div_int (a : exponent) (k : Z) : option exponent := exp_new (e_num a) (w32 (e_den a * k)).
Definition exp_eqb (a b : exponent) : bool := (e_num a =? e_num b) && (e_den a =? e_den b).

(** 177-249 Dimension: ten exponents, here a list. *)
Fixpoint map_opt {A B} (f : A -> option B) (l : list A) : option (list B) :=
  match l with [] => Some [] | a :: l => match f a, map_opt f l with Some b, Some r => Some (b :: r) | _, _ => None end end.
Definition dimensionless : list exponent := repeat exp_zero 10.
Definition dim_base (i : nat) : list exponent := <[i := exp_one]> dimensionless.
Definition is_dimensionless (d : list exponent) : bool := forallb exp_is_zero d.
Definition dim_mul (a b : list exponent) : option (list exponent) := map_opt (fun p => exp_add (fst p) (snd p)) (combine a b).
Definition dim_div (a b : list exponent) : option (list exponent) := map_opt (fun p => exp_sub (fst p) (snd p)) (combine a b).
Definition dim_recip (a : list exponent) : list exponent := map exp_neg a.
Definition dim_powi (a : list exponent) (k : Z) : option (list exponent) := map_opt (fun e => exp_scale e k) a.
Definition dim_root (a : list exponent) (k : Z) : option (list exponent) := map_opt (fun e => exp_div_int e k) a.
Fixpoint dim_eqb (a b : list exponent) : bool := match a, b with [], [] => true | x :: a, y :: b => exp_eqb x y && dim_eqb a b | _, _ => false end.

(** quantity.rs 22-50. The symbol of a unit is left out. *)
Record unit_ := Unit_ { u_dim : list exponent; u_scale : rational; u_offset : rational }.
Definition linear (d : list exponent) (s : rational) : unit_ := Unit_ d s rat_zero.
Record quantity := Qty { q_mag : rational; q_dim : list exponent }.
(** 54-71. *)
Definition q_of (v : rational) (u : unit_) : option quantity := m ← rat_mul v (u_scale u); r ← rat_add m (u_offset u); Some (Qty r (u_dim u)).
Definition q_scalar (v : rational) : quantity := Qty v dimensionless.
(** 83-121; the inner [None] is the refusal. *)
Definition in_unit (q : quantity) (u : unit_) : option (option rational) :=
  if negb (dim_eqb (q_dim q) (u_dim u)) then Some None else d ← rat_sub (q_mag q) (u_offset u); rat_div d (u_scale u).
Definition q_add (a b : quantity) : option (option quantity) :=
  if negb (dim_eqb (q_dim a) (q_dim b)) then Some None else m ← rat_add (q_mag a) (q_mag b); Some (Some (Qty m (q_dim a))).
Definition q_sub (a b : quantity) : option (option quantity) :=
  if negb (dim_eqb (q_dim a) (q_dim b)) then Some None else m ← rat_sub (q_mag a) (q_mag b); Some (Some (Qty m (q_dim a))).
Definition q_mul (a b : quantity) : option quantity := m ← rat_mul (q_mag a) (q_mag b); d ← dim_mul (q_dim a) (q_dim b); Some (Qty m d).
Definition q_div (a b : quantity) : option (option quantity) :=
  r ← rat_div (q_mag a) (q_mag b); match r with None => Some None | Some m => d ← dim_div (q_dim a) (q_dim b); Some (Some (Qty m d)) end.
(** 129-152. *)
Definition ge_one (x : rational) : bool := match rat_cmp x rat_one with Lt => false | _ => true end.
Definition takes (mag best : rational) : bool :=
  let a := rat_abs mag in let b := rat_abs best in
  match ge_one a, ge_one b with
  | true, true => match rat_cmp a b with Lt => true | _ => false end
  | true, false => true
  | false, true => false
  | false, false => match rat_cmp a b with Gt => true | _ => false end
  end.
Fixpoint best_loop (q : quantity) (ladder : list unit_) (best : option (rational * unit_)) : option (option (rational * unit_)) :=
  match ladder with
  | [] => Some best
  | u :: ladder =>
      o ← in_unit q u;
      best_loop q ladder (match o with
        | None => best
        | Some mag => Some (match best with None => (mag, u) | Some (bm, bu) => if takes mag bm then (mag, u) else (bm, bu) end)
        end)
  end.
Definition in_best_unit (q : quantity) (ladder : list unit_) : option (option (rational * unit_)) := best_loop q ladder None.
