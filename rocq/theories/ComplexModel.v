(** Model of exact complex numbers: crates/logicaffeine_base/src/numeric.rs, lines 1090–1297.
    The outer [None] is a panic (or endless recursion), an inner one a refusal. *)
From Coq Require Import ZArith List.
From stdpp Require Import list.
From Verif Require Import MachInt BigIntModel RationalModel.
Open Scope Z_scope.

(** numeric.rs 1102–1105. *)
Record complex := Cx { c_re : rational; c_im : rational }.

(** Sequencing of steps that may panic. *)
Definition bind {A B} (o : option A) (f : A -> option B) : option B := match o with Some a => f a | None => None end.

(** numeric.rs 1108–1149. *)
Definition c_from_rational (r : rational) : complex := Cx r rat_zero.
Definition c_from_i64 (x : Z) : complex := c_from_rational (rat_from_i64 x).
Definition c_zero : complex := Cx rat_zero rat_zero.
Definition c_one : complex := c_from_i64 1.
Definition c_i : complex := Cx rat_zero rat_one.
Definition c_is_zero (x : complex) : bool := rat_is_zero (c_re x) && rat_is_zero (c_im x).
Definition c_is_real (x : complex) : bool := rat_is_zero (c_im x).
(** numeric.rs 1152–1159. *)
Definition c_conjugate (x : complex) : complex := Cx (c_re x) (rat_negated (c_im x)).
Definition c_norm_sqr (x : complex) : option rational :=
  bind (rat_mul (c_re x) (c_re x)) (fun a => bind (rat_mul (c_im x) (c_im x)) (fun b => rat_add a b)).
(** numeric.rs 1167–1183. *)
Definition c_negated (x : complex) : complex := Cx (rat_negated (c_re x)) (rat_negated (c_im x)).
Definition c_add (x y : complex) : option complex :=
  bind (rat_add (c_re x) (c_re y)) (fun a => bind (rat_add (c_im x) (c_im y)) (fun b => Some (Cx a b))).
Definition c_sub (x y : complex) : option complex :=
  bind (rat_sub (c_re x) (c_re y)) (fun a => bind (rat_sub (c_im x) (c_im y)) (fun b => Some (Cx a b))).
Definition c_mul (x y : complex) : option complex :=
  let '(a, b, c, d) := (c_re x, c_im x, c_re y, c_im y) in
  bind (rat_mul a c) (fun ac => bind (rat_mul b d) (fun bd => bind (rat_sub ac bd) (fun re =>
  bind (rat_mul a d) (fun ad => bind (rat_mul b c) (fun bc => bind (rat_add ad bc) (fun im => Some (Cx re im))))))).
(** numeric.rs 1186–1198. *)
Definition c_recip (x : complex) : option (option complex) :=
  bind (c_norm_sqr x) (fun n =>
  if rat_is_zero n then Some None else
  bind (expect (rat_recip n)) (fun inv =>
  bind (rat_mul (c_re x) inv) (fun a => bind (rat_mul (rat_negated (c_im x)) inv) (fun b => Some (Some (Cx a b)))))).
Definition c_div (x y : complex) : option (option complex) :=
  bind (c_recip y) (fun o => match o with None => Some None | Some r => bind (c_mul x r) (fun z => Some (Some z)) end).

(** The loop of [pow]; the exponent is an [i32] cast to [u32], hence at most 32 rounds.
    numeric.rs 1209–1217. *)
Fixpoint c_pow_loop (n : nat) (result base : complex) (e : Z) : option complex :=
  if e =? 0 then Some result else
  match n with
  | O => None
  | S n =>
      bind (if Z.odd e then c_mul result base else Some result) (fun result =>
      let e := e / 2 in
      bind (if 0 <? e then c_mul base base else Some base) (fun base => c_pow_loop n result base e))
  end.
(** Negation of an [i32] as compiled for release: the least value is its own negation. *)
Definition neg_i32 (x : Z) : Z := (- x + 2 ^ 31) mod 2 ^ 32 - 2 ^ 31.
(** numeric.rs 1202–1219. [depth] bounds the recursion. *)
Fixpoint c_pow (depth : nat) (x : complex) (exp : Z) : option (option complex) :=
  if exp <? 0 then
    match depth with
    | O => None
    | S depth => bind (c_recip x) (fun o => match o with None => Some None | Some r => c_pow depth r (neg_i32 exp) end)
    end
  else bind (c_pow_loop 32 c_one x exp) (fun r => Some (Some r)).

(** Position of the last sign that is not the first character. numeric.rs 1235–1240. *)
Fixpoint last_sign (i : nat) (s : list Z) : option nat :=
  match s with
  | [] => None
  | c :: s' => match last_sign (S i) s' with
               | Some j => Some j
               | None => if (0 <? i)%nat && ((c =? 43) || (c =? 45)) then Some i else None
               end
  end.
(** numeric.rs 1223–1252. *)
Definition c_parse (s : list Z) : option (option complex) :=
  let s := trim s in
  match rev s with
  | [] => Some None
  | l :: body_rev =>
      if negb (l =? 105) then bind (rat_parse s) (fun o => Some (match o with Some r => Some (c_from_rational r) | None => None end)) else
      let body := rev body_rev in
      let '(real_str, imag_str) := match last_sign 0 body with Some i => (take i body, drop i body) | None => ([], body) end in
      bind (match real_str with [] => Some (Some rat_zero) | _ => rat_parse real_str end) (fun re =>
      match re with
      | None => Some None
      | Some re =>
          bind (match imag_str with
                | [] => Some (Some rat_one)
                | [c] => if c =? 43 then Some (Some rat_one) else if c =? 45 then Some (Some (rat_from_i64 (-1))) else rat_parse imag_str
                | _ => rat_parse imag_str
                end) (fun im => Some (match im with Some im => Some (Cx re im) | None => None end))
      end)
  end.
(** [Display], numeric.rs 1255–1279. *)
Definition c_show (x : complex) : option (list Z) :=
  if rat_is_zero (c_im x) then rat_show (c_re x) else
  let mag := rat_abs (c_im x) in
  let unit := rat_eqb mag rat_one in
  if rat_is_zero (c_re x) then
    if rat_is_negative (c_im x) then if unit then Some [45; 105] else bind (rat_show mag) (fun m => Some ([45] ++ m ++ [105]))
    else if unit then Some [105] else bind (rat_show mag) (fun m => Some (m ++ [105]))
  else
    let sign := if rat_is_negative (c_im x) then 45 else 43 in
    bind (rat_show (c_re x)) (fun re =>
    if unit then Some (re ++ [sign] ++ [105]) else bind (rat_show mag) (fun m => Some (re ++ [sign] ++ m ++ [105]))).
(** Derived equality, numeric.rs 1101. *)
Definition c_eqb (x y : complex) : bool := rat_eqb (c_re x) (c_re y) && rat_eqb (c_im x) (c_im y).
