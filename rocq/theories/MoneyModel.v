(** Model of money: crates/logicaffeine_base/src/money.rs. The outer [None] is a panic of an [expect] inside the numbers;
    strings are lists of bytes. *)
From Coq Require Import ZArith List.
From stdpp Require Import list.
From Verif Require Import MachInt BigIntModel RationalModel DecimalModel.
Open Scope Z_scope.

(** money.rs 19-34: the code is the identity. *)
Record currency := Cur { code : list Z; minor : Z }.
Definition str_eqb (a b : list Z) : bool := bool_decide (a = b).
Definition cur_eqb (a b : currency) : bool := str_eqb (code a) (code b).
(** [to_ascii_uppercase] of the trimmed string (only ASCII white space is trimmed here), lines 43, 172, 177. *)
Definition upper (c : Z) : Z := if (97 <=? c) && (c <=? 122) then c - 32 else c.
Definition normal (s : list Z) : list Z := map upper (trim s).
(** 42-80 by_code. *)
Definition catalogue : list (list Z * Z) := [([85; 83; 68], 2); ([69; 85; 82], 2); ([71; 66; 80], 2); ([67; 72; 70], 2); ([67; 65; 68], 2); ([65; 85; 68], 2); ([78; 90; 68], 2); ([83; 71; 68], 2); ([72; 75; 68], 2); ([67; 78; 89], 2); ([73; 78; 82], 2); ([66; 82; 76], 2); ([77; 88; 78], 2); ([90; 65; 82], 2); ([83; 69; 75], 2); ([78; 79; 75], 2); ([68; 75; 75], 2); ([82; 85; 66], 2); ([84; 82; 89], 2); ([80; 76; 78], 2); ([74; 80; 89], 0); ([75; 82; 87], 0); ([73; 83; 75], 0); ([86; 78; 68], 0); ([67; 76; 80], 0); ([66; 72; 68], 3); ([75; 87; 68], 3); ([79; 77; 82], 3); ([74; 79; 68], 3); ([84; 78; 68], 3)].
Fixpoint assoc (k : list Z) (l : list (list Z * Z)) : option Z := match l with [] => None | (c, s) :: l => if str_eqb k c then Some s else assoc k l end.
Definition by_code (s : list Z) : option currency := let c := normal s in match assoc c catalogue with Some sc => Some (Cur c sc) | None => None end.

(** 84-127 Money. The fields are public; [money_of] is the constructor. *)
Record money := Money { amount : decimal; cur : currency }.
Definition money_of (a : decimal) (c : currency) : option money := match dec_rescale a (minor c) HalfEven with Some d => Some (Money d c) | None => None end.
Definition money_add (m n : money) : option money := if cur_eqb (cur m) (cur n) then Some (Money (dec_add (amount m) (amount n)) (cur m)) else None.
Definition money_sub (m n : money) : option money := if cur_eqb (cur m) (cur n) then Some (Money (dec_sub (amount m) (amount n)) (cur m)) else None.
Definition scale_int (m : money) (k : Z) : option money := money_of (dec_mul (amount m) (dec_from_i64 k)) (cur m).
Definition ratio (m n : money) : option (option rational) :=
  if negb (cur_eqb (cur m) (cur n)) then Some None
  else match dec_to_rational (amount m), dec_to_rational (amount n) with Some p, Some q => rat_div p q | _, _ => None end.
(** 129-142 equality and what is hashed. *)
Definition money_eqb (m n : money) : option bool :=
  if cur_eqb (cur m) (cur n) then match dec_to_rational (amount m), dec_to_rational (amount n) with Some p, Some q => Some (rat_eqb p q) | _, _ => None end else Some false.
Definition money_hashed (m : money) : option (list Z * rational) := match dec_to_rational (amount m) with Some r => Some (code (cur m), r) | None => None end.

(** 157-195 RateTable: a map from normal codes; the hash map is a function here. *)
Definition rates : Type := list Z -> option rational.
Definition no_rates : rates := fun _ => None.
Definition set_rate (t : rates) (s : list Z) (r : rational) : rates := fun k => if str_eqb k (normal s) then Some r else t k.
Definition rate (t : rates) (s : list Z) : option rational := t (normal s).
Definition convert (t : rates) (m : money) (to : currency) : option (option money) :=
  match rate t (code (cur m)), rate t (code to) with
  | Some from_rate, Some to_rate =>
      match dec_to_rational (amount m) with
      | None => None
      | Some a =>
          match rat_mul a from_rate with
          | None => None
          | Some v =>
              match rat_div v to_rate with
              | None => None
              | Some None => Some None
              | Some (Some x) =>
                  match dec_from_rational x (minor to) HalfEven with
                  | None => None
                  | Some d => match money_of d to with Some r => Some (Some r) | None => None end
                  end
              end
          end
      end
  | _, _ => Some None
  end.
(** 197-231: the table of the thread. *)
Definition ambient_set (t : option rates) (s : list Z) (r : rational) : option rates := Some (set_rate (match t with Some t => t | None => no_rates end) s r).
Definition ambient_convert (t : option rates) (m : money) (to : currency) : option (option money) := match t with Some t => convert t m to | None => Some None end.
