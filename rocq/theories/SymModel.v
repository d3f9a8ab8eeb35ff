(** Model of the symmetry-breaking pass and of the bit-reversal certificate it
    rests on.

    /repo/crates/logicaffeine_kernel/src/bitvector.rs           lines 39-94
    /repo/crates/logicaffeine_compile/src/optimize/symmetry.rs  lines 28-1048

    The pass is modelled function by function on the part of the syntax tree it
    looks at (numbers, names, binary operators, [not], calls; Let, Set, If,
    While, Return), with one extra constructor for every other expression and
    statement.  To be able to say what a program does before and after the
    pass, the same fragment is given a meaning by an interpreter with fuel. *)

From Coq Require Import ZArith List Bool Lia.
Import ListNotations.
Open Scope Z_scope.

(** ** bitvector.rs *)

(** 64-bit two's complement wrap of a shift result ([i64 <<]). *)
Definition wrap (x : Z) : Z := (x + 2 ^ 63) mod 2 ^ 64 - 2 ^ 63.
Definition shl (x k : Z) : Z := wrap (Z.shiftl x k).

(** bitvector.rs 43-51: [rev_n].  The loop over [0..n] is a fold. *)
Definition rev_n (x : Z) (n : nat) : Z :=
  fold_left
    (fun r i => if negb (Z.land (Z.shiftr x (Z.of_nat i)) 1 =? 0)
                then Z.lor r (shl 1 (Z.of_nat (n - 1 - i))) else r)
    (seq 0 n) 0.

(** bitvector.rs 59: [full]. *)
Definition full (n : nat) : Z := shl 1 (Z.of_nat n) - 1.

(** bitvector.rs 62, 66, 70: the three tests, for one width and one value. *)
Definition l1 (n : nat) (v : Z) : bool :=
  Z.land (full n) (Z.lnot (rev_n v n)) =? rev_n (Z.land (full n) (Z.lnot v)) n.
Definition lem4 (n : nat) (v : Z) : bool :=
  Z.land (rev_n (shl v 1) n) (full n) =? Z.land (Z.shiftr (rev_n v n) 1) (full n).
Definition lem5 (n : nat) (v : Z) : bool :=
  Z.land (rev_n (Z.shiftr v 1) n) (full n) =? Z.land (shl (rev_n v n) 1) (full n).

(** bitvector.rs 39, 57-76: [PROOF_WIDTH] and [check_reflection_identities];
    the error text is dropped, only whether it succeeds is kept. *)
Definition PROOF_WIDTH : nat := 16.
Definition check_reflection_identities : bool :=
  forallb (fun n => forallb (fun v => l1 n v && lem4 n v && lem5 n v)
                      (map Z.of_nat (seq 0 (2 ^ n))))
    (seq 1 PROOF_WIDTH).

(** ** The syntax the pass looks at *)

Inductive op :=
| Add | Subtract | Multiply | Modulo | Shl | Shr | BitAnd | BitOr | BitXor
| Eq | NotEq | Lt | LtEq | Gt | GtEq | And | Or.

Definition op_eqb (a b : op) : bool :=
  match a, b with
  | Add, Add | Subtract, Subtract | Multiply, Multiply | Modulo, Modulo
  | Shl, Shl | Shr, Shr | BitAnd, BitAnd | BitOr, BitOr | BitXor, BitXor
  | Eq, Eq | NotEq, NotEq | Lt, Lt | LtEq, LtEq | Gt, Gt | GtEq, GtEq
  | And, And | Or, Or => true
  | _, _ => false
  end.

Definition symbol := nat.

(** [EOther] stands for every other expression form. *)
Inductive expr :=
| ENum (z : Z)
| EId (s : symbol)
| EBin (o : op) (l r : expr)
| ENot (e : expr)
| ECall (f : symbol) (args : list expr)
| EOther.

(** [SOther] stands for every other statement form.  Types, mutability and the
    [decreasing] clause are dropped: the pass copies them. *)
Inductive stmt :=
| SLet (x : symbol) (e : expr)
| SSet (x : symbol) (e : expr)
| SIf (c : expr) (t : list stmt) (e : option (list stmt))
| SWhile (c : expr) (b : list stmt)
| SReturn (e : option expr)
| SOther.

(** A function definition: the fields the pass inspects. *)
Record func := Func {
  f_name : symbol; f_params : list symbol; f_body : list stmt;
  f_native : bool; f_generic : bool; f_exported : bool; f_symmetry : bool }.

Definition program := list func.

(** The two names the rewrites intern (symmetry.rs 537 and 930). *)
Definition SYM_MID : symbol := 900%nat.
Definition VALUESYM : symbol := 901%nat.

(** ** symmetry.rs 78-199 *)

Definition as_ident (e : expr) : option symbol :=
  match e with EId s => Some s | _ => None end.
Definition as_int (e : expr) : option Z :=
  match e with ENum z => Some z | _ => None end.
Definition is_binop (e : expr) (o : op) : option (expr * expr) :=
  match e with
  | EBin o' l r => if op_eqb o' o then Some (l, r) else None
  | _ => None
  end.

Definition is_id (e : expr) (s : symbol) : bool :=
  match e with EId s' => Nat.eqb s' s | _ => false end.
Definition is_num (e : expr) (z : Z) : bool :=
  match e with ENum z' => Z.eqb z' z | _ => false end.

(** 99-109: [match_or_with_bit]. *)
Definition match_or_with_bit (e : expr) (bit : symbol) : option symbol :=
  match is_binop e BitOr with
  | None => None
  | Some (l, r) =>
      if is_id r bit then as_ident l
      else if is_id l bit then as_ident r else None
  end.

Inductive arg_kind := Plain | ShiftLeft | ShiftRight.

(** 120-135: [classify_state_arg]. *)
Definition classify_state_arg (e : expr) (bit : symbol) : option (symbol * arg_kind) :=
  let with_kind k b := option_map (fun p => (p, k)) (match_or_with_bit b bit) in
  let right :=
    match is_binop e Shr with
    | Some (base, amt) =>
        if is_num amt 1 then with_kind ShiftRight base else with_kind Plain e
    | None => with_kind Plain e
    end in
  match is_binop e Shl with
  | Some (base, amt) => if is_num amt 1 then with_kind ShiftLeft base else right
  | None => right
  end.

(** 138-143: [is_step]. *)
Definition is_step (e : expr) (k : symbol) : bool :=
  match is_binop e Add with
  | Some (l, r) => (is_id l k && is_num r 1) || (is_num l 1 && is_id r k)
  | None => false
  end.

(** 147-199: [match_bit_loop]. *)
Definition match_bit_loop (cond : expr) (body : list stmt)
  : option (symbol * symbol * symbol * expr) :=
  match is_binop cond NotEq with
  | None => None
  | Some (xl, xr) =>
      match as_ident xl with
      | None => None
      | Some x =>
          if negb (is_num xr 0) then None
          else
            match body with
            | [SLet bit v0; SSet x' v1; SSet acc v2] =>
                let neg e := match is_binop e Subtract with
                             | Some (z, y) => is_num z 0 && is_id y x
                             | None => false
                             end in
                match is_binop v0 BitAnd with
                | None => None
                | Some (a, b) =>
                    if negb ((is_id a x && neg b) || (is_id b x && neg a)) then None
                    else if negb (Nat.eqb x' x) then None
                    else
                      match is_binop v1 BitXor with
                      | None => None
                      | Some (a1, b1) =>
                          if negb ((is_id a1 x && is_id b1 bit)
                                   || (is_id a1 bit && is_id b1 x)) then None
                          else
                            match is_binop v2 Add with
                            | None => None
                            | Some (a2, b2) =>
                                if is_id a2 acc then Some (x, bit, acc, b2)
                                else if is_id b2 acc then Some (x, bit, acc, a2)
                                else None
                            end
                      end
                end
            | _ => None
            end
      end
  end.

(** ** symmetry.rs 201-359 *)

Inductive choice_kind :=
| BitTrick (x : symbol)
| Range (col : symbol) (limit : expr) (cmp : op).

Record choice_loop := CL {
  cl_kind : choice_kind; cl_bit : symbol; cl_acc : symbol;
  cl_call : expr; cl_guard : option expr }.

(** 250-260: [accum_from]. *)
Definition accum_from (target : symbol) (v : expr) : option expr :=
  match is_binop v Add with
  | None => None
  | Some (a, b) =>
      match (if is_id a target then Some b
             else if is_id b target then Some a else None) with
      | Some (ECall f args) => Some (ECall f args)
      | _ => None
      end
  end.

(** 262-291: the scan of the loop body; the three local variables are the
    state. *)
Definition scan_range (col : symbol) (body : list stmt)
  : option symbol * option (symbol * expr * option expr) * bool :=
  fold_left
    (fun st s =>
       let '(bit, found, incr) := st in
       match s with
       | SLet var v =>
           match is_binop v Shl with
           | Some (l, r) =>
               if is_num l 1 && is_id r col then (Some var, found, incr) else st
           | None => st
           end
       | SSet target v =>
           if Nat.eqb target col && is_step v col then (bit, found, true)
           else match accum_from target v with
                | Some call => (bit, Some (target, call, None), incr)
                | None => st
                end
       | SIf g [SSet target v] None =>
           match accum_from target v with
           | Some call => (bit, Some (target, call, Some g), incr)
           | None => st
           end
       | _ => st
       end)
    body (None, None, false).

(** 239-298: [match_range_loop]. *)
Definition match_range_loop (cond : expr) (body : list stmt) : option choice_loop :=
  match cond with
  | EBin o l r =>
      match o with
      | Lt | LtEq =>
          match as_ident l with
          | None => None
          | Some col =>
              match scan_range col body with
              | (Some bit, Some (acc, call, guard), true) =>
                  Some (CL (Range col r o) bit acc call guard)
              | _ => None
              end
          end
      | _ => None
      end
  | _ => None
  end.

(** 301-306: [match_choice_loop]. *)
Definition match_choice_loop (cond : expr) (body : list stmt) : option choice_loop :=
  match match_bit_loop cond body with
  | Some (x, bit, acc, call) => Some (CL (BitTrick x) bit acc call None)
  | None => match_range_loop cond body
  end.

(** 337-352: the count of the transition kinds. *)
Definition kinds_ok (n bit : symbol) (args : list expr) : bool :=
  let '(p, l, r, o) :=
    fold_left
      (fun st a =>
         let '(p, l, r, o) := st in
         if is_id a n then st
         else match classify_state_arg a bit with
              | Some (_, Plain) => (S p, l, r, o)
              | Some (_, ShiftLeft) => (p, S l, r, o)
              | Some (_, ShiftRight) => (p, l, S r, o)
              | None => (p, l, r, S o)
              end)
      args (0, 0, 0, 0)%nat in
  Nat.eqb p 1 && Nat.eqb l 1 && Nat.eqb r 1 && Nat.eqb o 0.

(** 331-358: the search for the choice loop; it stops at the first loop that
    makes the self-call. *)
Fixpoint refl_scan (g : symbol) (params : list symbol) (row n : symbol)
  (body : list stmt) : bool :=
  match body with
  | [] => false
  | SWhile cond lb :: rest =>
      match match_choice_loop cond lb with
      | Some cl =>
          match cl_call cl with
          | ECall f (a0 :: args) =>
              if Nat.eqb f g && Nat.eqb (S (length args)) (length params)
                 && is_step a0 row
              then kinds_ok n (cl_bit cl) args
              else refl_scan g params row n rest
          | _ => refl_scan g params row n rest
          end
      | None => refl_scan g params row n rest
      end
  | _ :: rest => refl_scan g params row n rest
  end.

(** A block that is exactly [Return CONST] (322 and 813-814). *)
Definition returns_const (b : list stmt) : bool :=
  match b with
  | [SReturn (Some (ENum _))] => true
  | _ => false
  end.

(** 313-359: [is_reflection_search]. *)
Definition is_reflection_search (g : symbol) (params : list symbol) (body : list stmt)
  : bool :=
  match body with
  | SIf (EBin Eq (EId row) (EId n)) t None :: _ =>
      if returns_const t then refl_scan g params row n body else false
  | _ => false
  end.

(** ** symmetry.rs 361-586 *)

Record entry := Entry {
  e_n : symbol; e_while : nat; e_loop : choice_loop; e_let : option nat }.

Definition is_let_int (x : symbol) (z : Z) (s : stmt) : bool :=
  match s with SLet v e => Nat.eqb v x && is_num e z | _ => false end.
Definition is_let (x : symbol) (s : stmt) : bool :=
  match s with SLet v _ => Nat.eqb v x | _ => false end.
Definition returns_var (x : symbol) (body : list stmt) : bool :=
  match List.last body SOther with
  | SReturn (Some v) => is_id v x
  | _ => false
  end.

(** 385-401: the first choice loop whose call is [g(1, ..., n)]. *)
Fixpoint find_loop (searches : list symbol) (n : symbol) (i : nat) (body : list stmt)
  : option (nat * choice_loop) :=
  match body with
  | [] => None
  | SWhile cond lb :: rest =>
      match match_choice_loop cond lb with
      | Some cl =>
          match cl_call cl with
          | ECall f args =>
              if existsb (Nat.eqb f) searches
                 && match args with a0 :: _ => is_num a0 1 | [] => false end
                 && existsb (fun a => is_id a n) args
              then Some (i, cl)
              else find_loop searches n (S i) rest
          | _ => find_loop searches n (S i) rest
          end
      | None => find_loop searches n (S i) rest
      end
  | _ :: rest => find_loop searches n (S i) rest
  end.

(** [rposition] of the [Let] of [x] (419-421). *)
Definition rposition (P : stmt -> bool) (l : list stmt) : option nat :=
  snd (fold_left (fun st s => (S (fst st), if P s then Some (fst st) else snd st))
         l (0%nat, None)).

(** 375-444: [recognize_entry]; [avail_init] is read off the statement at
    [e_let] when the body is rewritten. *)
Definition recognize_entry (params : list symbol) (body : list stmt)
  (searches : list symbol) : option entry :=
  match params with
  | [n] =>
      match find_loop searches n 0 body with
      | None => None
      | Some (w, cl) =>
          let before := firstn w body in
          if negb (existsb (is_let_int (cl_acc cl) 0) before) then None
          else if negb (returns_var (cl_acc cl) body) then None
          else
            match cl_kind cl with
            | BitTrick x =>
                match rposition (is_let x) before with
                | Some idx => Some (Entry n w cl (Some idx))
                | None => None
                end
            | Range col limit cmp =>
                if negb (op_eqb cmp Lt && is_id limit n) then None
                else if negb (existsb (is_let_int col 0) before) then None
                else Some (Entry n w cl None)
            end
      end
  | _ => None
  end.

(** 448-464: [subst_ident]. *)
Fixpoint subst_ident (from to : symbol) (e : expr) : expr :=
  match e with
  | EId s => if Nat.eqb s from then EId to else e
  | ENum _ => e
  | EBin o l r => EBin o (subst_ident from to l) (subst_ident from to r)
  | ENot a => ENot (subst_ident from to a)
  | ECall f args => ECall f (map (subst_ident from to) args)
  | EOther => e
  end.

(** 227-233: [shr1]. *)
Definition shr1 (s : symbol) : expr := EBin Shr (EId s) (ENum 1).

(** 526-580: the statements added after the loop. *)
Definition after_loop (e : entry) : list stmt :=
  let cl := e_loop e in
  let acc := cl_acc cl in
  let mid_let := SLet SYM_MID (EBin Shl (ENum 1) (shr1 (e_n e))) in
  let mid_call := subst_ident (cl_bit cl) SYM_MID (cl_call cl) in
  let add_mid := SSet acc (EBin Add (EId acc) mid_call) in
  let middle_body :=
    match cl_guard cl with
    | Some g => [mid_let; SIf (subst_ident (cl_bit cl) SYM_MID g) [add_mid] None]
    | None => [mid_let; add_mid]
    end in
  [SSet acc (EBin Multiply (EId acc) (ENum 2));
   SIf (EBin NotEq (EBin Modulo (EId (e_n e)) (ENum 2)) (ENum 0)) middle_body None].

(** 485-584: the loop of [rewrite_entry]. *)
Fixpoint rewrite_from (e : entry) (i : nat) (body : list stmt) : list stmt :=
  match body with
  | [] => []
  | s :: rest =>
      (if match e_let e with Some k => Nat.eqb i k | None => false end then
         match s with
         | SLet v init =>
             [SLet v (EBin BitAnd init
                        (EBin Subtract (EBin Shl (ENum 1) (shr1 (e_n e))) (ENum 1)))]
         | _ => [s]
         end
       else if Nat.eqb i (e_while e) then
         (match cl_kind (e_loop e) with
          | Range col _ cmp =>
              match s with
              | SWhile _ lb => SWhile (EBin cmp (EId col) (shr1 (e_n e))) lb
              | _ => s
              end
          | BitTrick _ => s
          end) :: after_loop e
       else [s]) ++ rewrite_from e (S i) rest
  end.

Definition rewrite_entry (e : entry) (body : list stmt) : list stmt :=
  rewrite_from e 0 body.

(** ** symmetry.rs 656-832: value symmetry *)

(** 658-669: [expr_contains_sym]. *)
Fixpoint expr_contains_sym (sym : symbol) (e : expr) : bool :=
  match e with
  | EId s => Nat.eqb s sym
  | ENum _ => false
  | EBin _ l r => expr_contains_sym sym l || expr_contains_sym sym r
  | ENot a => expr_contains_sym sym a
  | ECall _ args => existsb (expr_contains_sym sym) args
  | EOther => true
  end.

(** 675-698: [expr_sym_only_in_equality] and [eq_side_ok]. *)
Fixpoint expr_sym_only_in_equality (sym : symbol) (e : expr) : bool :=
  match e with
  | EId s => negb (Nat.eqb s sym)
  | ENum _ => true
  | EBin o l r =>
      match o with
      | Eq | NotEq =>
          (match l with EId _ => true | _ => expr_sym_only_in_equality sym l end)
          && (match r with EId _ => true | _ => expr_sym_only_in_equality sym r end)
      | _ => expr_sym_only_in_equality sym l && expr_sym_only_in_equality sym r
      end
  | ENot a => expr_sym_only_in_equality sym a
  | ECall _ args => forallb (expr_sym_only_in_equality sym) args
  | EOther => negb (expr_contains_sym sym e)
  end.

(** 701-718: [param_used_only_in_equality], one statement at a time. *)
Fixpoint stmt_only_in_equality (sym : symbol) (s : stmt) : bool :=
  match s with
  | SLet _ v => expr_sym_only_in_equality sym v
  | SSet _ v => expr_sym_only_in_equality sym v
  | SReturn v => match v with Some e => expr_sym_only_in_equality sym e | None => true end
  | SIf c t e =>
      expr_sym_only_in_equality sym c && forallb (stmt_only_in_equality sym) t
      && match e with Some b => forallb (stmt_only_in_equality sym) b | None => true end
  | SWhile c b => expr_sym_only_in_equality sym c && forallb (stmt_only_in_equality sym) b
  | SOther => false
  end.
Definition param_used_only_in_equality (sym : symbol) (body : list stmt) : bool :=
  forallb (stmt_only_in_equality sym) body.

(** Positions of the arguments that are the bare name [c] (774-779). *)
Fixpoint positions (c : symbol) (i : nat) (args : list expr) : list nat :=
  match args with
  | [] => []
  | a :: rest => (if is_id a c then [i] else []) ++ positions c (S i) rest
  end.

(** 745-784: the guarded accumulate. *)
Definition value_if (f : symbol) (params : list symbol) (level c : symbol)
  (guard : expr) (s : stmt) : option (nat * symbol) :=
  let other l r :=
    if is_id l c then as_ident r else if is_id r c then as_ident l else None in
  match (match guard with
         | EBin Eq l r => other l r
         | EBin NotEq l r => other l r
         | _ => None
         end) with
  | None => None
  | Some prev =>
      if Nat.eqb prev c || negb (existsb (Nat.eqb prev) params) then None
      else
        match s with
        | SSet acc v =>
            match is_binop v Add with
            | None => None
            | Some (a, b) =>
                match (if is_id a acc then Some b
                       else if is_id b acc then Some a else None) with
                | Some (ECall g (a0 :: args)) =>
                    if Nat.eqb g f && Nat.eqb (S (length args)) (length params)
                       && is_step a0 level
                    then match positions c 0 (a0 :: args) with
                         | [0%nat] => None
                         | [p] => Some (p, prev)
                         | _ => None
                         end
                    else None
                | _ => None
                end
            end
        | _ => None
        end
  end.

(** 726-792: [match_value_search_loop]; the state is [None] once the function
    has returned early. *)
Definition match_value_search_loop (f : symbol) (params : list symbol)
  (level : symbol) (cond : expr) (body : list stmt) : option (nat * symbol) :=
  match (match cond with
         | EBin Lt l _ => as_ident l
         | EBin LtEq l _ => as_ident l
         | _ => None
         end) with
  | None => None
  | Some c =>
      if negb (Nat.eqb (length body) 2) then None
      else
        match fold_left
                (fun st s =>
                   match st with
                   | None => None
                   | Some (incr, found) =>
                       match s with
                       | SSet target v =>
                           if Nat.eqb target c && is_step v c
                           then Some (true, found) else None
                       | SIf guard [s1] None =>
                           match value_if f params level c guard s1 with
                           | Some r => Some (incr, Some r)
                           | None => None
                           end
                       | _ => None
                       end
                   end)
                body (Some (false, None)) with
        | Some (true, found) => found
        | _ => None
        end
  end.

(** 822-831. *)
Fixpoint value_scan (f : symbol) (params : list symbol) (level : symbol)
  (whole body : list stmt) : option nat :=
  match body with
  | [] => None
  | SWhile cond lb :: rest =>
      match match_value_search_loop f params level cond lb with
      | Some (p, prev) =>
          if param_used_only_in_equality prev whole then Some p
          else value_scan f params level whole rest
      | None => value_scan f params level whole rest
      end
  | _ :: rest => value_scan f params level whole rest
  end.

(** 799-832: [value_search_val_pos]. *)
Definition value_search_val_pos (f : symbol) (params : list symbol) (body : list stmt)
  : option nat :=
  match body with
  | SIf cond t None :: _ =>
      match (match cond with
             | EBin Gt l _ => as_ident l
             | EBin GtEq l _ => as_ident l
             | EBin Eq l _ => as_ident l
             | _ => None
             end) with
      | Some level =>
          if returns_const t then value_scan f params level body body else None
      | None => None
      end
  | _ => None
  end.

(** ** symmetry.rs 834-956 *)

Record value_entry := VEntry {
  v_while : nat; v_total : symbol; v_fun : symbol; v_args : list expr;
  v_pos : nat; v_bound : expr }.

(** 866-887: the scan of the loop body. *)
Definition scan_value (c : symbol) (lb : list stmt)
  : bool * option (symbol * expr) * bool :=
  fold_left
    (fun st s =>
       let '(incr, acc_call, clean) := st in
       match s with
       | SSet target v =>
           if Nat.eqb target c && is_step v c then (true, acc_call, clean)
           else match is_binop v Add with
                | Some (a, b) =>
                    if is_id a target then (incr, Some (target, b), clean)
                    else if is_id b target then (incr, Some (target, a), clean)
                    else (incr, acc_call, false)
                | None => (incr, acc_call, false)
                end
       | _ => (incr, acc_call, false)
       end)
    lb (false, None, true).

Definition assoc (s : symbol) (l : list (symbol * nat)) : option nat :=
  option_map snd (find (fun p => Nat.eqb (fst p) s) l).

Definition try_value_loop (searches : list (symbol * nat)) (body : list stmt)
  (i : nat) (s : stmt) : option value_entry :=
  match s with
  | SWhile (EBin LtEq (EId c) bound) lb =>
      if negb (Nat.eqb (length lb) 2) then None
      else
        match scan_value c lb with
        | (true, Some (total, ECall f args), true) =>
            match assoc f searches with
            | None => None
            | Some p =>
                if negb (is_id (nth p args EOther) c) then None
                else if negb (forallb (Nat.eqb p) (positions c 0 args)) then None
                else
                  let before := firstn i body in
                  if existsb (is_let_int c 1) before
                     && existsb (is_let_int total 0) before
                     && returns_var total body
                  then Some (VEntry i total f args p bound) else None
            end
        | _ => None
        end
  | _ => None
  end.

(** 850-917: [recognize_value_entry]. *)
Fixpoint value_entry_from (searches : list (symbol * nat)) (whole : list stmt)
  (i : nat) (body : list stmt) : option value_entry :=
  match body with
  | [] => None
  | s :: rest =>
      match try_value_loop searches whole i s with
      | Some e => Some e
      | None => value_entry_from searches whole (S i) rest
      end
  end.
Definition recognize_value_entry (body : list stmt) (searches : list (symbol * nat))
  : option value_entry := value_entry_from searches body 0 body.

(** 932-936: argument [p] replaced by the literal 1. *)
Fixpoint set_arg (p : nat) (args : list expr) : list expr :=
  match p, args with
  | _, [] => []
  | O, _ :: rest => ENum 1 :: rest
  | S p', a :: rest => a :: set_arg p' rest
  end.

(** 924-956: [rewrite_value_entry]. *)
Fixpoint rewrite_value_from (e : value_entry) (i : nat) (body : list stmt) : list stmt :=
  match body with
  | [] => []
  | s :: rest =>
      (if Nat.eqb i (v_while e)
       then [SLet VALUESYM (v_bound e);
             SSet (v_total e)
               (EBin Multiply (EId VALUESYM)
                  (ECall (v_fun e) (set_arg (v_pos e) (v_args e))))]
       else [s]) ++ rewrite_value_from e (S i) rest
  end.

(** ** symmetry.rs 961-1048 *)

Definition refl_searches (p : program) : list symbol :=
  map f_name
    (List.filter
       (fun f => negb (f_native f) && negb (f_generic f)
                 && is_reflection_search (f_name f) (f_params f) (f_body f)) p).

Definition value_searches (p : program) : list (symbol * nat) :=
  flat_map
    (fun f => if f_native f || f_generic f
                 || is_reflection_search (f_name f) (f_params f) (f_body f)
              then []
              else match value_search_val_pos (f_name f) (f_params f) (f_body f) with
                   | Some k => [(f_name f, k)]
                   | None => []
                   end) p.

(** 997-1047, for one function.  The two certificates ([refl_ok], [value_ok])
    are constants that hold (see [C99_certificate] for the reflection one). *)
Definition break_func (searches : list symbol) (vals : list (symbol * nat)) (f : func)
  : func :=
  if f_native f || f_generic f || f_exported f || negb (f_symmetry f)
     || existsb (Nat.eqb (f_name f)) searches
     || existsb (fun v => Nat.eqb (fst v) (f_name f)) vals
  then f
  else
    let with_body b :=
      Func (f_name f) (f_params f) b (f_native f) (f_generic f) (f_exported f)
        (f_symmetry f) in
    match (match searches with
           | [] => None
           | _ => recognize_entry (f_params f) (f_body f) searches
           end) with
    | Some e => with_body (rewrite_entry e (f_body f))
    | None =>
        match recognize_value_entry (f_body f) vals with
        | Some e => with_body (rewrite_value_from e 0 (f_body f))
        | None => f
        end
    end.

Definition break_symmetry (p : program) : program :=
  map (break_func (refl_searches p) (value_searches p)) p.

(** ** What a program of the fragment does

    [And] and [Or] evaluate their right operand only when needed
    (interpreter.rs 3296-3311).  Integers are unbounded (the language widens on
    overflow), [Not] on an
    integer is the bitwise complement, a shift by a negative amount, a
    remainder by zero and a missing name are errors.  Names are per call;
    blocks of one call share them, which is what the programs below rely on. *)

Inductive value := VInt (z : Z) | VBool (b : bool) | VNothing.

Definition binop (o : op) (x y : value) : option value :=
  match x, y with
  | VInt a, VInt b =>
      match o with
      | Add => Some (VInt (a + b))
      | Subtract => Some (VInt (a - b))
      | Multiply => Some (VInt (a * b))
      | Modulo => if b =? 0 then None else Some (VInt (Z.rem a b))
      | Shl => if b <? 0 then None else Some (VInt (Z.shiftl a b))
      | Shr => if b <? 0 then None else Some (VInt (Z.shiftr a b))
      | BitAnd => Some (VInt (Z.land a b))
      | BitOr => Some (VInt (Z.lor a b))
      | BitXor => Some (VInt (Z.lxor a b))
      | Eq => Some (VBool (a =? b))
      | NotEq => Some (VBool (negb (a =? b)))
      | Lt => Some (VBool (a <? b))
      | LtEq => Some (VBool (a <=? b))
      | Gt => Some (VBool (b <? a))
      | GtEq => Some (VBool (b <=? a))
      | And | Or => None
      end
  | _, _ => None
  end.

(** [is_truthy], interpreter.rs 1325-1345; the other kinds of value are not in the fragment. *)
Definition truthy (v : value) : bool :=
  match v with VInt z => negb (z =? 0) | VBool b => b | VNothing => false end.

Definition env := symbol -> option value.
Definition upd (r : env) (x : symbol) (v : value) : env :=
  fun y => if Nat.eqb y x then Some v else r y.
Fixpoint bind (ps : list symbol) (vs : list value) : env :=
  match ps, vs with
  | p :: ps', v :: vs' => upd (bind ps' vs') p v
  | _, _ => fun _ => None
  end.

Section Run.
Variable p : program.

Fixpoint eval (f : nat) (r : env) (e : expr) {struct f} : option value :=
  match f with
  | O => None
  | S f =>
      match e with
      | ENum z => Some (VInt z)
      | EId s => r s
      | EBin o a b =>
          match o with
          | And =>
              match eval f r a with
              | Some x => if truthy x then option_map (fun y => VBool (truthy y)) (eval f r b)
                          else Some (VBool false)
              | None => None
              end
          | Or =>
              match eval f r a with
              | Some x => if truthy x then Some (VBool true)
                          else option_map (fun y => VBool (truthy y)) (eval f r b)
              | None => None
              end
          | _ =>
              match eval f r a, eval f r b with
              | Some x, Some y => binop o x y
              | _, _ => None
              end
          end
      | ENot a =>
          match eval f r a with
          | Some (VInt z) => Some (VInt (Z.lnot z))
          | Some (VBool b) => Some (VBool (negb b))
          | _ => None
          end
      | ECall g args =>
          match evals f r args with
          | Some vs => call f g vs
          | None => None
          end
      | EOther => None
      end
  end
with evals (f : nat) (r : env) (es : list expr) {struct f} : option (list value) :=
  match f with
  | O => None
  | S f =>
      match es with
      | [] => Some []
      | e :: es =>
          match eval f r e, evals f r es with
          | Some v, Some vs => Some (v :: vs)
          | _, _ => None
          end
      end
  end
with call (f : nat) (g : symbol) (vs : list value) {struct f} : option value :=
  match f with
  | O => None
  | S f =>
      match find (fun fn => Nat.eqb (f_name fn) g) p with
      | Some fn =>
          if Nat.eqb (length (f_params fn)) (length vs) then
            match exec f (bind (f_params fn) vs) (f_body fn) with
            | Some (_, Some v) => Some v
            | _ => None
            end
          else None
      | None => None
      end
  end
with exec (f : nat) (r : env) (ss : list stmt) {struct f} : option (env * option value) :=
  match f with
  | O => None
  | S f =>
      match ss with
      | [] => Some (r, None)
      | s :: ss =>
          match step f r s with
          | Some (r', None) => exec f r' ss
          | other => other
          end
      end
  end
with step (f : nat) (r : env) (s : stmt) {struct f} : option (env * option value) :=
  match f with
  | O => None
  | S f =>
      match s with
      | SLet x e | SSet x e =>
          match eval f r e with
          | Some v => Some (upd r x v, None)
          | None => None
          end
      | SIf c t e =>
          match eval f r c with
          | Some (VBool true) => exec f r t
          | Some (VBool false) =>
              match e with Some b => exec f r b | None => Some (r, None) end
          | _ => None
          end
      | SWhile c b =>
          match eval f r c with
          | Some (VBool true) =>
              match exec f r b with
              | Some (r', None) => step f r' (SWhile c b)
              | other => other
              end
          | Some (VBool false) => Some (r, None)
          | _ => None
          end
      | SReturn (Some e) =>
          match eval f r e with
          | Some v => Some (r, Some v)
          | None => None
          end
      | SReturn None => Some (r, Some VNothing)
      | SOther => None
      end
  end.
End Run.

(** A call of function [g] of program [p] on [vs] returns [v]. *)
Definition returns (p : program) (g : symbol) (vs : list value) (v : value) : Prop :=
  exists f, call p f g vs = Some v.

(** ** Programs *)

Definition plain_func (g : symbol) (ps : list symbol) (b : list stmt) : func :=
  Func g ps b false false false true.

(** Names. *)
Notation G := 1%nat (only parsing).
Notation E := 2%nat (only parsing).
Notation ROW := 10%nat (only parsing).
Notation COLS := 11%nat (only parsing).
Notation D1 := 12%nat (only parsing).
Notation D2 := 13%nat (only parsing).
Notation N := 14%nat (only parsing).
Notation ALL := 15%nat (only parsing).
Notation AVAIL := 16%nat (only parsing).
Notation COUNT := 17%nat (only parsing).
Notation BIT := 18%nat (only parsing).
Notation COL := 19%nat (only parsing).

Definition occupied : expr := EBin BitOr (EBin BitOr (EId COLS) (EId D1)) (EId D2).
Definition all_columns : expr := EBin Subtract (EBin Shl (ENum 1) (EId N)) (ENum 1).
Definition low_bit : expr := EBin BitAnd (EId AVAIL) (EBin Subtract (ENum 0) (EId AVAIL)).
Definition next_call : expr :=
  ECall G [EBin Add (EId ROW) (ENum 1);
           EBin BitOr (EId COLS) (EId BIT);
           EBin Shl (EBin BitOr (EId D1) (EId BIT)) (ENum 1);
           EBin Shr (EBin BitOr (EId D2) (EId BIT)) (ENum 1);
           EId N].
Definition first_call : expr :=
  ECall G [ENum 1; EId BIT; EBin Shl (EId BIT) (ENum 1); EBin Shr (EId BIT) (ENum 1); EId N].
Definition bit_body (c : expr) : list stmt :=
  [SLet BIT low_bit;
   SSet AVAIL (EBin BitXor (EId AVAIL) (EId BIT));
   SSet COUNT (EBin Add (EId COUNT) c)].
Definition bit_loop (c : expr) : stmt :=
  SWhile (EBin NotEq (EId AVAIL) (ENum 0)) (bit_body c).

(** benchmarks/programs/nqueens/main.lg 4-14: the bit-trick search, with the
    available set given by [avail]. *)
Definition search_bits (avail : expr) : func :=
  plain_func G [ROW; COLS; D1; D2; N]
    [SIf (EBin Eq (EId ROW) (EId N)) [SReturn (Some (ENum 1))] None;
     SLet ALL all_columns;
     SLet AVAIL avail;
     SLet COUNT (ENum 0);
     bit_loop next_call;
     SReturn (Some (EId COUNT))].
Definition queens_avail : expr := EBin BitAnd (EId ALL) (ENot occupied).

Definition range_body (s : stmt) : list stmt :=
  [SLet BIT (EBin Shl (ENum 1) (EId COL)); s;
   SSet COL (EBin Add (EId COL) (ENum 1))].
Definition range_loop (s : stmt) : stmt :=
  SWhile (EBin Lt (EId COL) (EId N)) (range_body s).
Definition add_call (c : expr) : stmt := SSet COUNT (EBin Add (EId COUNT) c).

(** The counted-range search (the form of symmetry.rs 235-238). *)
Definition search_range : func :=
  plain_func G [ROW; COLS; D1; D2; N]
    [SIf (EBin Eq (EId ROW) (EId N)) [SReturn (Some (ENum 1))] None;
     SLet COUNT (ENum 0);
     SLet COL (ENum 0);
     range_loop (SIf (EBin Eq (EBin BitAnd occupied (EId BIT)) (ENum 0))
                   [add_call next_call] None);
     SReturn (Some (EId COUNT))].

(** The first-row enumeration: what the specialiser makes of
    [solve(0, 0, 0, 0, n)], with the iterated set given by [init]. *)
Definition entry_bits (init : expr) : func :=
  plain_func E [N]
    [SIf (EBin Eq (ENum 0) (EId N)) [SReturn (Some (ENum 1))] None;
     SLet AVAIL init;
     SLet COUNT (ENum 0);
     bit_loop first_call;
     SReturn (Some (EId COUNT))].
Definition entry_range : func :=
  plain_func E [N]
    [SLet COUNT (ENum 0);
     SLet COL (ENum 0);
     range_loop (add_call first_call);
     SReturn (Some (EId COUNT))].

(** Colourings of a path: [walk(level, prev, k, size)]. *)
Notation F := 3%nat (only parsing).
Notation LEVEL := 20%nat (only parsing).
Notation PREV := 21%nat (only parsing).
Notation KK := 22%nat (only parsing).
Notation SIZE := 23%nat (only parsing).
Notation CC := 24%nat (only parsing).
Definition search_values (guard bound : expr) : func :=
  plain_func F [LEVEL; PREV; KK; SIZE]
    [SIf (EBin GtEq (EId LEVEL) (EId SIZE)) [SReturn (Some (ENum 1))] None;
     SLet COUNT (ENum 0);
     SLet CC (ENum 1);
     SWhile (EBin LtEq (EId CC) bound)
       [SIf guard
          [add_call (ECall F [EBin Add (EId LEVEL) (ENum 1); EId CC; EId KK; EId SIZE])] None;
        SSet CC (EBin Add (EId CC) (ENum 1))];
     SReturn (Some (EId COUNT))].
Definition differs : expr := EBin NotEq (EId CC) (EId PREV).
Definition entry_values : func :=
  plain_func E [KK; SIZE]
    [SLet COUNT (ENum 0);
     SLet CC (ENum 1);
     SWhile (EBin LtEq (EId CC) (EId KK))
       [add_call (ECall F [ENum 1; EId CC; EId KK; EId SIZE]);
        SSet CC (EBin Add (EId CC) (ENum 1))];
     SReturn (Some (EId COUNT))].
