(** Constant folding (crates/logicaffeine_compile/src/optimize/fold.rs) against the evaluation of expressions
    (interpreter.rs, semantics/arith.rs, semantics/compare.rs). *)
From Coq Require Import ZArith QArith Qround String List Bool Lia.
From Flocq Require Import IEEE754.BinarySingleNaN.
From Verif Require Import MachInt.
Import ListNotations.
Open Scope Z_scope.

(** f64: IEEE 754 binary64, round to nearest even; the payloads of NaNs are merged. *)
Global Instance prec53 : FLX.Prec_gt_0 53 := eq_refl.
Global Instance prec_emax : Prec_lt_emax 53 1024 := eq_refl.
Definition f64 := binary_float 53 1024.
Definition fzero (neg : bool) : f64 := B754_zero neg.
Definition fone : f64 := Bone.
Definition fadd : f64 -> f64 -> f64 := Bplus mode_NE.
Definition fsub : f64 -> f64 -> f64 := Bminus mode_NE.
Definition fmul : f64 -> f64 -> f64 := Bmult mode_NE.
Definition fdiv : f64 -> f64 -> f64 := Bdiv mode_NE.
(** [as f64] on an integer. *)
Definition z_f64 (z : Z) : f64 := binary_normalize 53 1024 prec53 prec_emax mode_NE z 0 false.
Definition is_zero_f (f : f64) : bool := Beqb f (fzero false).

(** interpreter.rs, RuntimeValue: integers in and beyond i64, rationals, floats, booleans, text and sequences;
    the other kinds of value (words, decimals, dates, sets, structs, ...) are [VOther]. A sequence is its
    contents: that two variables may share it is not modelled. *)
Inductive value := VInt (z : Z) | VBig (z : Z) | VRat (q : Q) | VFloat (f : f64) | VBool (b : bool) | VText (s : string)
  | VList (l : list value) | VNothing | VOther (n : nat).

(** ast/stmt.rs:96-160 BinaryOpKind. *)
Inductive binop := Add | Subtract | Multiply | Pow | Divide | ExactDivide | FloorDivide | Modulo | Eq | NotEq | Lt | Gt | LtEq | GtEq
  | And | Or | Concat | SeqConcat | ApproxEq | BitXor | BitAnd | BitOr | Shl | Shr.
Definition binop_eqb (a b : binop) : bool :=
  match a, b with
  | Add, Add | Subtract, Subtract | Multiply, Multiply | Pow, Pow | Divide, Divide | ExactDivide, ExactDivide | FloorDivide, FloorDivide
  | Modulo, Modulo | Eq, Eq | NotEq, NotEq | Lt, Lt | Gt, Gt | LtEq, LtEq | GtEq, GtEq | And, And | Or, Or | Concat, Concat
  | SeqConcat, SeqConcat | ApproxEq, ApproxEq | BitXor, BitXor | BitAnd, BitAnd | BitOr, BitOr | Shl, Shl | Shr, Shr => true
  | _, _ => false
  end.

(** What the theorems hold for any choice of: display strings, conversions of large numbers to f64, powf, floor,
    the tolerance of [is approximately], the exact comparison of a number with a float, and everything about the
    other kinds of value. A comparison and an equality answer with a boolean. *)
Record prims := Prims {
  display : value -> string; big_f64 : Z -> f64; rat_f64 : Q -> f64; fpow : f64 -> f64 -> f64; ffloor : f64 -> f64;
  fclose : f64 -> f64 -> bool; cmp_exact : Q -> f64 -> option comparison;
  other_op : binop -> value -> value -> option value; other_cmp : binop -> value -> value -> option bool;
  other_eq : value -> value -> bool; other_truthy : nat -> bool; contains : value -> value -> option bool }.

Section Semantics.
Context (P : prims).

(** RuntimeValue::from_bigint, from_rational: the narrowest kind that holds the number. *)
Definition int_val (z : Z) : value := if in_i64 z then VInt z else VBig z.
Definition rat_val (q : Q) : value := let r := Qred q in if Z.eqb (Zpos (Qden r)) 1 then int_val (Qnum r) else VRat r.
Definition int_of (v : value) : option Z := match v with VInt z | VBig z => Some z | _ => None end.
Definition rat_of (v : value) : option Q := match v with VInt z | VBig z => Some (inject_Z z) | VRat q => Some q | _ => None end.
Definition num_f64 (v : value) : option f64 :=
  match v with VInt z => Some (z_f64 z) | VBig z => Some (big_f64 P z) | VRat q => Some (rat_f64 P q) | VFloat f => Some f | _ => None end.
Definition is_other (v : value) : bool := match v with VOther _ => true | _ => false end.
Definition is_float (v : value) : bool := match v with VFloat _ => true | _ => false end.

(** arith.rs: the numeric arms shared by add, subtract and multiply. *)
Definition arith (fz : Z -> Z -> Z) (fq : Q -> Q -> Q) (ff : f64 -> f64 -> f64) (l r : value) : option value :=
  match int_of l, int_of r with
  | Some a, Some b => Some (int_val (fz a b))
  | _, _ => match rat_of l, rat_of r with
            | Some a, Some b => Some (rat_val (fq a b))
            | _, _ => match num_f64 l, num_f64 r with Some a, Some b => Some (VFloat (ff a b)) | _, _ => None end
            end
  end.
(** arith.rs:415-509. *)
Definition add (l r : value) : option value :=
  if is_other l || is_other r then other_op P Add l r else
  match l, r with
  | VText a, VText b => Some (VText (a ++ b))
  | VText a, _ => Some (VText (a ++ display P r))
  | _, VText b => Some (VText (display P l ++ b))
  | VList a, VList b => Some (VList (a ++ b))
  | _, _ => arith Z.add Qplus fadd l r
  end.
(** arith.rs:613-691. *)
Definition subtract (l r : value) : option value :=
  if is_other l || is_other r then other_op P Subtract l r else arith Z.sub Qminus fsub l r.
Fixpoint repeat_list (n : nat) (l : list value) : list value := match n with O => [] | S k => l ++ repeat_list k l end.
(** arith.rs:745-819. *)
Definition multiply (l r : value) : option value :=
  if is_other l || is_other r then other_op P Multiply l r else
  match l, r with
  | VList a, VInt n | VInt n, VList a => Some (VList (repeat_list (Z.to_nat n) a))
  | _, _ => arith Z.mul Qmult fmul l r
  end.
(** arith.rs:821-942: a zero divisor is an error; a float divided by a BigInt or a rational is not checked. *)
Definition divide (l r : value) : option value :=
  if is_other l || is_other r then other_op P Divide l r else
  match int_of l, int_of r with
  | Some a, Some b => if Z.eqb b 0 then None else Some (int_val (Z.quot a b))
  | _, _ => match rat_of l, rat_of r with
            | Some a, Some b => if Qeq_bool b 0 then None else Some (rat_val (Qdiv a b))
            | _, _ => match num_f64 l, num_f64 r with
                      | Some a, Some b =>
                          match r with
                          | VInt 0 => None
                          | VFloat f => if is_zero_f f then None else Some (VFloat (fdiv a b))
                          | _ => Some (VFloat (fdiv a b))
                          end
                      | _, _ => None
                      end
            end
  end.
(** arith.rs:956-979. *)
Definition floor_divide (l r : value) : option value :=
  if is_other l || is_other r then other_op P FloorDivide l r else
  match (if is_float l || is_float r then match num_f64 l, num_f64 r with Some a, Some b => Some (a, b) | _, _ => None end else None) with
  | Some (a, b) => if is_zero_f b then None else Some (VFloat (ffloor P (fdiv a b)))
  | None => match rat_of l, rat_of r with
            | Some a, Some b => if Qeq_bool b 0 then None else Some (int_val (Qfloor (Qdiv a b)))
            | _, _ => None
            end
  end.
(** arith.rs:986-1000. *)
Definition exact_divide (l r : value) : option value :=
  if is_other l || is_other r then other_op P ExactDivide l r else
  match rat_of l, rat_of r with
  | Some a, Some b => if Qeq_bool b 0 then None else Some (rat_val (Qdiv a b))
  | _, _ => if is_float l || is_float r then divide l r else None
  end.
(** arith.rs:1002-1031: the remainder has the sign of the dividend. *)
Definition modulo (l r : value) : option value :=
  if is_other l || is_other r then other_op P Modulo l r else
  match l, r with
  | VInt a, VInt b => if Z.eqb b 0 then None else Some (VInt (Z.rem a b))
  | _, _ => match int_of l, int_of r with
            | Some a, Some b => if Z.eqb b 0 then None else Some (int_val (Z.rem a b))
            | _, _ => None
            end
  end.
(** arith.rs:699-743. *)
Definition power (l r : value) : option value :=
  if is_other l || is_other r then other_op P Pow l r else
  if is_float l || is_float r then match num_f64 l, num_f64 r with Some a, Some b => Some (VFloat (fpow P a b)) | _, _ => None end else
  match l, r with
  | VInt b, VInt e | VBig b, VInt e => if (0 <=? e) && (e <? 2 ^ 32) then Some (int_val (b ^ e)) else None
  | VRat b, VInt e => if negb ((- 2 ^ 31 <=? e) && (e <? 2 ^ 31)) || (Qeq_bool b 0 && (e <? 0)) then None else Some (rat_val (Qpower b e))
  | _, _ => None
  end.
(** compare.rs:36-156: floats by IEEE equality, numbers of different kinds by exact value. *)
Definition values_equal (l r : value) : bool :=
  match l, r with
  | VInt a, VInt b | VBig a, VBig b => Z.eqb a b
  | VRat a, VRat b => Qeq_bool a b
  | VFloat a, VFloat b => Beqb a b
  | VFloat b, _ => match rat_of r with Some a => match cmp_exact P a b with Some Datatypes.Eq => true | _ => false end | None => false end
  | _, VFloat b => match rat_of l with Some a => match cmp_exact P a b with Some Datatypes.Eq => true | _ => false end | None => false end
  | VBool a, VBool b => Bool.eqb a b
  | VText a, VText b => String.eqb a b
  | VNothing, VNothing => true
  | VList _, VList _ | VOther _, VOther _ => other_eq P l r
  | _, _ => false
  end.
(** compare.rs:160-310: [rel] maps an ordering, or none for an unordered pair, to the operator. *)
Definition rel (op : binop) (c : option comparison) : bool :=
  match c with
  | None => false
  | Some o => match op, o with
              | Lt, Datatypes.Lt | Gt, Datatypes.Gt => true
              | LtEq, Datatypes.Gt | GtEq, Datatypes.Lt => false
              | LtEq, _ | GtEq, _ => true
              | _, _ => false
              end
  end.
Definition compare (op : binop) (l r : value) : option bool :=
  if is_other l || is_other r then other_cmp P op l r else
  match int_of l, int_of r with
  | Some a, Some b => Some (rel op (Some (Z.compare a b)))
  | _, _ => match rat_of l, rat_of r with
            | Some a, Some b => Some (rel op (Some (Qcompare a b)))
            | _, _ => match l, r with
                      | VFloat a, VFloat b => Some (rel op (Bcompare a b))
                      | VFloat a, _ => match rat_of r with Some b => Some (rel op (option_map CompOpp (cmp_exact P b a))) | None => None end
                      | _, VFloat b => match rat_of l with Some a => Some (rel op (cmp_exact P a b)) | None => None end
                      | _, _ => None
                      end
            end
  end.
(** interpreter.rs:1325-1343. *)
Definition truthy (v : value) : bool :=
  match v with
  | VBool b => b
  | VInt z | VBig z => negb (Z.eqb z 0)
  | VRat q => negb (Qeq_bool q 0)
  | VFloat f => negb (is_zero_f f)
  | VText s => negb (String.eqb s "")
  | VList l => match l with [] => false | _ => true end
  | VNothing => false
  | VOther n => other_truthy P n
  end.
(** arith.rs:342-413 binary_op, for the operators that evaluate both operands. *)
Definition bitop (op : binop) (fz : Z -> Z -> Z) (fb : bool -> bool -> bool) (l r : value) : option value :=
  if is_other l || is_other r then other_op P op l r else
  match l, r with VInt a, VInt b => Some (VInt (fz a b)) | VBool a, VBool b => Some (VBool (fb a b)) | _, _ => None end.
Definition shift (op : binop) (f : Z -> Z -> Z) (l r : value) : option value :=
  if is_other l || is_other r then other_op P op l r else
  match l, r with VInt a, VInt b => Some (VInt (f a (b mod 64))) | _, _ => None end.
Definition binary_op (op : binop) (l r : value) : option value :=
  match op with
  | Add => add l r
  | Subtract => subtract l r
  | Multiply => multiply l r
  | Pow => power l r
  | Divide => divide l r
  | ExactDivide => exact_divide l r
  | FloorDivide => floor_divide l r
  | Modulo => modulo l r
  | Eq => Some (VBool (values_equal l r))
  | NotEq => Some (VBool (negb (values_equal l r)))
  | ApproxEq => match num_f64 l, num_f64 r with Some a, Some b => Some (VBool (fclose P a b)) | _, _ => None end
  | Lt | Gt | LtEq | GtEq => option_map VBool (compare op l r)
  | And => Some (VBool (truthy l && truthy r))
  | Or => Some (VBool (truthy l || truthy r))
  | Concat => Some (VText (display P l ++ display P r))
  | SeqConcat => match l, r with VList a, VList b => Some (VList (a ++ b)) | _, _ => None end
  | BitXor => bitop BitXor Z.lxor xorb l r
  | BitAnd => bitop BitAnd Z.land andb l r
  | BitOr => bitop BitOr Z.lor orb l r
  | Shl => shift Shl (fun a n => wrap_i64 (Z.shiftl a n)) l r
  | Shr => shift Shr Z.shiftr l r
  end.
End Semantics.

(** ast/stmt.rs Expr and Literal. Text literals are strings rather than interned symbols (C35 relates the two).
    [EOther] is every form whose operands are evaluated from left to right before an action of its own (index,
    slice, call, list, tuple, field access, new, copy, ...); closures and interpolated strings are not modelled. *)
Inductive lit := LNum (z : Z) | LFloat (f : f64) | LBool (b : bool) | LText (s : string) | LNothing | LOther (n : nat).
Inductive expr := ELit (l : lit) | EId (x : nat) | EBin (op : binop) (l r : expr) | ENot (e : expr) | EContains (c v : expr)
  | EOther (tag : nat) (args : list expr).
Definition lit_val (l : lit) : value :=
  match l with LNum z => VInt z | LFloat f => VFloat f | LBool b => VBool b | LText s => VText s | LNothing => VNothing | LOther n => VOther n end.

(** An evaluation ends with a value or an error; [Stop] is left to the forms outside the model (a call that does not
    return within the steps it is given). *)
Inductive outcome (A : Type) := Ok (v : A) | Err | Stop.
Arguments Ok {A} v. Arguments Err {A}. Arguments Stop {A}.
Definition of_option {A} (o : option A) : outcome A := match o with Some v => Ok v | None => Err end.
Definition bind {A B S : Type} (r : outcome A * S) (k : A -> S -> outcome B * S) : outcome B * S :=
  match r with (Ok v, s) => k v s | (Err, s) => (Err, s) | (Stop, s) => (Stop, s) end.

(** interpreter.rs:4755-4800, 4985 (evaluate_expr_sync): and/or stop early and answer with a boolean, other operators
    evaluate left, then right; an undefined variable is an error. [today] and [now] are not modelled. *)
Section Eval.
Context {S : Type} (P : prims) (look : S -> nat -> option value) (other : nat -> list value -> S -> outcome value * S).
Definition eval_list (ev : expr -> S -> outcome value * S) : list expr -> S -> outcome (list value) * S :=
  fix go es s := match es with [] => (Ok [], s) | e :: r => bind (ev e s) (fun v s1 => bind (go r s1) (fun vs s2 => (Ok (v :: vs), s2))) end.
Fixpoint eval (e : expr) (s : S) : outcome value * S :=
  match e with
  | ELit l => (Ok (lit_val l), s)
  | EId x => (of_option (look s x), s)
  | EBin And l r => bind (eval l s) (fun v s1 => if truthy P v then bind (eval r s1) (fun w s2 => (Ok (VBool (truthy P w)), s2)) else (Ok (VBool false), s1))
  | EBin Or l r => bind (eval l s) (fun v s1 => if truthy P v then (Ok (VBool true), s1) else bind (eval r s1) (fun w s2 => (Ok (VBool (truthy P w)), s2)))
  | EBin op l r => bind (eval l s) (fun v s1 => bind (eval r s1) (fun w s2 => (of_option (binary_op P op v w), s2)))
  | ENot a => bind (eval a s) (fun v s1 => (Ok (VBool (negb (truthy P v))), s1))
  | EContains c v => bind (eval c s) (fun a s1 => bind (eval v s1) (fun b s2 => (of_option (option_map VBool (contains P a b)), s2)))
  | EOther t args => bind (eval_list eval args s) (fun vs s1 => other t vs s1)
  end.
End Eval.

(** fold.rs:278-289 expr_is_total. *)
Fixpoint expr_is_total (e : expr) : bool :=
  match e with
  | ELit _ | EId _ => true
  | EBin op l r => negb (match op with Divide | ExactDivide | Modulo => true | _ => false end) && expr_is_total l && expr_is_total r
  | ENot a => expr_is_total a
  | _ => false
  end.
(** fold.rs:295-315 expr_is_boolish; the set of symbols is a predicate. *)
Definition expr_is_boolish (bools : nat -> bool) (e : expr) : bool :=
  match e with
  | ELit (LBool _) => true
  | EId x => bools x
  | ENot _ | EContains _ _ => true
  | EBin op _ _ => match op with Eq | NotEq | ApproxEq | Lt | Gt | LtEq | GtEq | And | Or => true | _ => false end
  | _ => false
  end.
(** fold.rs:582-604. *)
Definition is_int (n : Z) (e : expr) : bool := match e with ELit (LNum z) => Z.eqb z n | _ => false end.
Definition is_float_zero (e : expr) : bool := match e with ELit (LFloat f) => is_zero_f f | _ => false end.
Definition is_float_one (e : expr) : bool := match e with ELit (LFloat f) => Beqb f fone | _ => false end.
Definition is_bool (b : bool) (e : expr) : bool := match e with ELit (LBool c) => Bool.eqb c b | _ => false end.
Definition is_power_of_two (n : Z) : bool := (1 <? n) && (Z.land n (n - 1) =? 0).
(** fold.rs:750-774 fold_int_op; checked_rem fails for the smallest integer and -1. *)
Definition num (z : Z) : expr := ELit (LNum z).
Definition boolean (b : bool) : expr := ELit (LBool b).
Definition fold_int_op (op : binop) (l r : Z) : option expr :=
  match op with
  | Add => option_map num (checked_i64 (l + r))
  | Subtract => option_map num (checked_i64 (l - r))
  | Multiply => option_map num (checked_i64 (l * r))
  | Divide => if Z.eqb r 0 then None else option_map num (checked_i64 (Z.quot l r))
  | Modulo => if Z.eqb r 0 || (Z.eqb l (- 2 ^ 63) && Z.eqb r (-1)) then None else Some (num (Z.rem l r))
  | Eq => Some (boolean (Z.eqb l r))
  | NotEq => Some (boolean (negb (Z.eqb l r)))
  | Lt => Some (boolean (l <? r))
  | Gt => Some (boolean (r <? l))
  | LtEq => Some (boolean (l <=? r))
  | GtEq => Some (boolean (r <=? l))
  | BitXor => Some (num (Z.lxor l r))
  | Shl => if (0 <=? r) && (r <? 64) then Some (num (wrap_i64 (Z.shiftl l r))) else None
  | Shr => if (0 <=? r) && (r <? 64) then Some (num (Z.shiftr l r)) else None
  | And => Some (boolean (negb (Z.eqb l 0) && negb (Z.eqb r 0)))
  | Or => Some (boolean (negb (Z.eqb l 0) || negb (Z.eqb r 0)))
  | BitAnd => Some (num (Z.land l r))
  | BitOr => Some (num (Z.lor l r))
  | _ => None
  end.
(** fold.rs:776-791. *)
Definition flt (f : f64) : expr := ELit (LFloat f).
Definition fold_float_op (op : binop) (l r : f64) : option expr :=
  match op with
  | Add => Some (flt (fadd l r))
  | Subtract => Some (flt (fsub l r))
  | Multiply => Some (flt (fmul l r))
  | Divide => if is_zero_f r then None else Some (flt (fdiv l r))
  | Eq => Some (boolean (Beqb l r))
  | NotEq => Some (boolean (negb (Beqb l r)))
  | Lt => Some (boolean (Bltb l r))
  | Gt => Some (boolean (Bltb r l))
  | LtEq => Some (boolean (Bleb l r))
  | GtEq => Some (boolean (Bleb r l))
  | _ => None
  end.
(** fold.rs:793-816. *)
Definition fold_bool_op (op : binop) (l r : bool) : option expr :=
  match op with
  | And => Some (boolean (l && r))
  | Or => Some (boolean (l || r))
  | Eq => Some (boolean (Bool.eqb l r))
  | NotEq => Some (boolean (negb (Bool.eqb l r)))
  | _ => None
  end.
Definition fold_text_op (op : binop) (l r : string) : option expr :=
  match op with
  | Concat | Add => Some (ELit (LText (l ++ r)))
  | Eq => Some (boolean (String.eqb l r))
  | NotEq => Some (boolean (negb (String.eqb l r)))
  | _ => None
  end.
(** fold.rs:559-580. *)
Definition try_fold_binary (op : binop) (l r : expr) : option expr :=
  match l, r with
  | ELit (LNum a), ELit (LNum b) => fold_int_op op a b
  | ELit (LFloat a), ELit (LFloat b) => fold_float_op op a b
  | ELit (LBool a), ELit (LBool b) => fold_bool_op op a b
  | ELit (LText a), ELit (LText b) => fold_text_op op a b
  | _, _ => None
  end.
(** fold.rs:717-730, the closure mask_of. *)
Definition mask_of (e : expr) : option expr :=
  match e with
  | EBin Modulo x (ELit (LNum d)) => if is_power_of_two d then Some (EBin BitAnd x (num (d - 1))) else None
  | _ => None
  end.
(** fold.rs:606-748. *)
Definition try_simplify (bools : nat -> bool) (op : binop) (l r : expr) : option expr :=
  match op with
  | Add => if is_int 0 r then Some l else if is_int 0 l then Some r else None
  | Subtract => if is_int 0 r || is_float_zero r then Some l else None
  | Multiply =>
      if is_int 1 r || is_float_one r then Some l else if is_int 1 l || is_float_one l then Some r
      else if is_int 0 r && expr_is_total l then Some r else if is_int 0 l && expr_is_total r then Some l else None
  | Divide => if is_int 1 r || is_float_one r then Some l else None
  | And =>
      if is_bool true r && expr_is_boolish bools l then Some l else if is_bool true l && expr_is_boolish bools r then Some r
      else if is_bool false r && expr_is_total l then Some (boolean false) else if is_bool false l then Some (boolean false) else None
  | Or =>
      if is_bool true r && expr_is_total l then Some (boolean true) else if is_bool true l then Some (boolean true)
      else if is_bool false r && expr_is_boolish bools l then Some l else if is_bool false l && expr_is_boolish bools r then Some r else None
  | Eq | NotEq =>
      match (if is_int 0 r then mask_of l else None) with
      | Some m => Some (EBin op m r)
      | None => match (if is_int 0 l then mask_of r else None) with Some m => Some (EBin op l m) | None => None end
      end
  | _ => None
  end.
(** fold.rs:317-557 fold_expr; that an unchanged expression keeps its place in the arena is not modelled. *)
Fixpoint fold_expr (bools : nat -> bool) (e : expr) : expr :=
  match e with
  | ELit _ | EId _ => e
  | EBin op l r =>
      let fl := fold_expr bools l in let fr := fold_expr bools r in
      match try_fold_binary op fl fr with
      | Some x => x
      | None => match try_simplify bools op fl fr with Some x => x | None => EBin op fl fr end
      end
  | ENot a =>
      match fold_expr bools a with
      | ELit (LBool b) => boolean (negb b)
      | ELit (LNum n) => boolean (Z.eqb n 0)
      | ENot i => if expr_is_boolish bools i then i else ENot (ENot i)
      | fo => ENot fo
      end
  | EContains c v => EContains (fold_expr bools c) (fold_expr bools v)
  | EOther t args => EOther t (map (fold_expr bools) args)
  end.
