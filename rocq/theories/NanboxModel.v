(** Model of the 8-byte VM value (crates/logicaffeine_compile/src/vm/nanbox.rs 73-440) and of the register file made of it
    (vm/value.rs 250-410, feature narrow-value). *)
From Coq Require Import ZArith List Bool.
From stdpp Require Import gmap.
From Verif Require Import MachInt.
Open Scope Z_scope.

Section Nanbox.
(** Everything that is not an Int, Float, Bool or Nothing; cloning it shares it, so a clone is the same value. *)
Context {O : Type}.
(** interpreter.rs RuntimeValue; a float is given by its 64 bits. *)
Inductive rv := RInt (z : Z) | RFloat (bits : Z) | RBool (b : bool) | RNothing | ROther (o : O).
(** The memory behind the boxes. An allocator gives an address or aborts. *)
Notation memory := (gmap Z rv).
Context (alloc : memory -> option Z).
(** [Abort]: out of memory. [Fault]: a read or free of an address that is not allocated. [Panic]: a Rust panic. *)
Inductive res (A : Type) := Done (a : A) | Abort | Fault | Panic.
Arguments Done {A}. Arguments Abort {A}. Arguments Fault {A}. Arguments Panic {A}.
Definition rbind {A B} (r : res A) (f : A -> res B) : res B := match r with Done a => f a | Abort => Abort | Fault => Fault | Panic => Panic end.

(** nanbox.rs 80-115. *)
Definition QNAN : Z := 0xFFF8000000000000.
Definition CANONICAL_NAN : Z := 0xFFFFFFFFFFFFFFFF.
Definition TAG_SHIFT : Z := 48.
Definition TAG_MASK : Z := 3.
Definition PAYLOAD_MASK : Z := 2 ^ 48 - 1.
Definition TAG_INT : Z := 0.
Definition TAG_BOOL : Z := 1.
Definition TAG_NOTHING : Z := 2.
Definition TAG_HEAP : Z := 3.
Definition is_tagged (bits : Z) : bool := (QNAN <=? bits) && negb (bits =? CANONICAL_NAN).
Definition tag_of (bits : Z) : Z := Z.land (Z.shiftr bits TAG_SHIFT) TAG_MASK.
Definition tagged (tag payload : Z) : Z := Z.lor (Z.lor QNAN (Z.shiftl tag TAG_SHIFT)) payload.
(** f64::is_nan on the bits. *)
Definition is_nan (bits : Z) : bool := 0x7FF0000000000000 <? bits mod 2 ^ 63.

(** 128-176 constructors. *)
Definition heap (h : memory) (v : rv) : res (Z * memory) :=
  match alloc h with None => Abort | Some a => Done (tagged TAG_HEAP (Z.land a PAYLOAD_MASK), <[a := v]> h) end.
Definition n_int (h : memory) (z : Z) : res (Z * memory) :=
  if (- 2 ^ 47 <=? z) && (z <=? 2 ^ 47 - 1) then Done (tagged TAG_INT (Z.land (wrap64 z) PAYLOAD_MASK), h) else heap h (RInt z).
Definition n_float (bits : Z) : Z := if is_nan bits then CANONICAL_NAN else bits.
Definition n_bool (b : bool) : Z := tagged TAG_BOOL (if b then 1 else 0).
Definition n_nothing : Z := tagged TAG_NOTHING 0.
Definition from_runtime (h : memory) (v : rv) : res (Z * memory) :=
  match v with RInt z => n_int h z | RFloat b => Done (n_float b, h) | RBool b => Done (n_bool b, h) | RNothing => Done (n_nothing, h) | ROther _ => heap h v end.
(** 178-262 accessors. The shift pair sign-extends an i64. *)
Definition payload (n : Z) : Z := Z.land n PAYLOAD_MASK.
Definition extend (p : Z) : Z := Z.shiftr (wrap_i64 (Z.shiftl p 16)) 16.
Definition is_heap (n : Z) : bool := is_tagged n && (tag_of n =? TAG_HEAP).
Definition heap_ref (h : memory) (n : Z) : res rv := match h !! payload n with Some v => Done v | None => Fault end.
Definition as_int (h : memory) (n : Z) : res (option Z) :=
  if negb (is_tagged n) then Done None else
  if tag_of n =? TAG_INT then Done (Some (extend (payload n))) else
  if tag_of n =? TAG_HEAP then rbind (heap_ref h n) (fun v => Done (match v with RInt z => Some z | _ => None end)) else Done None.
Definition as_float (n : Z) : option Z := if is_tagged n then None else Some n.
Definition as_bool (n : Z) : option bool := if is_tagged n && (tag_of n =? TAG_BOOL) then Some (negb (payload n =? 0)) else None.
Definition is_nothing (n : Z) : bool := is_tagged n && (tag_of n =? TAG_NOTHING).
Definition as_inline_int (n : Z) : option Z := if is_tagged n && (tag_of n =? TAG_INT) then Some (extend (payload n)) else None.
(** 322-336 to_runtime; 283-320 into_runtime, which frees the box. *)
Definition to_runtime (h : memory) (n : Z) : res rv :=
  if negb (is_tagged n) then Done (RFloat n) else
  if tag_of n =? TAG_INT then Done (RInt (extend (payload n))) else
  if tag_of n =? TAG_BOOL then Done (RBool (negb (payload n =? 0))) else
  if tag_of n =? TAG_NOTHING then Done RNothing else
  if tag_of n =? TAG_HEAP then heap_ref h n else Panic.
Definition into_runtime (h : memory) (n : Z) : res (rv * memory) :=
  rbind (to_runtime h n) (fun v => Done (v, if is_heap n then delete (payload n) h else h)).
(** 424-450 Drop and Clone. *)
Definition drop_ (h : memory) (n : Z) : res memory :=
  if is_heap n then match h !! payload n with Some _ => Done (delete (payload n) h) | None => Fault end else Done h.
Definition clone (h : memory) (n : Z) : res (Z * memory) := if is_heap n then rbind (heap_ref h n) (heap h) else Done (n, h).

(** ** The register file *)
(** value.rs 335-408: the operators with an inline path; [kern] is the shared kernel (semantics::arith, compare), [None] an error. *)
Inductive bop := Add | Sub | Mul | Lt | Gt | Le | Ge | Eq | Ne.
Context (kern : bop -> rv -> rv -> option rv).
Definition z_op (k : bop) (a b : Z) : Z + bool :=
  match k with
  | Add => inl (a + b) | Sub => inl (a - b) | Mul => inl (a * b)
  | Lt => inr (a <? b) | Gt => inr (b <? a) | Le => inr (a <=? b) | Ge => inr (b <=? a) | Eq => inr (a =? b) | Ne => inr (negb (a =? b))
  end.
(** nanbox.rs 345-405 int_add, int_sub, int_mul (the kernel's result is unwrapped), int_lt, int_eq. *)
Definition fast (h : memory) (k : bop) (a b : Z) : res (Z * memory) :=
  match z_op k a b with
  | inr c => Done (n_bool c, h)
  | inl z => match checked_i64 z with
             | Some s => n_int h s
             | None => match kern k (RInt a) (RInt b) with Some v => from_runtime h v | None => Panic end
             end
  end.
(** The result is [None] for an error. *)
Definition binary (h : memory) (k : bop) (m n : Z) : res (option Z * memory) :=
  match as_inline_int m, as_inline_int n with
  | Some a, Some b => rbind (fast h k a b) (fun r => Done (Some (fst r), snd r))
  | _, _ => rbind (to_runtime h m) (fun v => rbind (to_runtime h n) (fun w =>
      match kern k v w with None => Done (None, h) | Some u => rbind (from_runtime h u) (fun r => Done (Some (fst r), snd r)) end))
  end.
(** Assigning a register drops what it held. *)
Definition assign (h : memory) (regs : list Z) (d : nat) (n : Z) : res (memory * list Z) :=
  match regs !! d with None => Panic | Some old => rbind (drop_ h old) (fun h1 => Done (h1, <[d := n]> regs)) end.
(** What the VM does with registers: load a value, copy a register, move a register's value out (leaving Nothing), read one,
    change one in place (make_heap_mut 246-260) and apply an operator. *)
Inductive op := Load (d : nat) (v : rv) | Copy (d s : nat) | Take (s : nat) | Read (s : nat) | Change (d : nat) (f : rv -> rv) | Binary (k : bop) (d a b : nat).
(** What a step shows: nothing, a value, an error. *)
Inductive shown := Silent | Value (v : rv) | Error.
Definition reg (regs : list Z) (s : nat) (f : Z -> res (memory * list Z * shown)) : res (memory * list Z * shown) := match regs !! s with None => Panic | Some n => f n end.
Definition set (regs : list Z) (d : nat) (r : Z * memory) : res (memory * list Z * shown) := rbind (assign (snd r) regs d (fst r)) (fun q => Done (fst q, snd q, Silent)).
Definition step (h : memory) (regs : list Z) (o : op) : res (memory * list Z * shown) :=
  match o with
  | Load d v => reg regs d (fun _ => rbind (from_runtime h v) (set regs d))
  | Copy d s => reg regs s (fun n => reg regs d (fun _ => rbind (clone h n) (set regs d)))
  | Take s => reg regs s (fun n => rbind (into_runtime h n) (fun r => Done (snd r, <[s := n_nothing]> regs, Value (fst r))))
  | Read s => reg regs s (fun n => rbind (to_runtime h n) (fun v => Done (h, regs, Value v)))
  | Change d f => reg regs d (fun n =>
      rbind (if is_heap n then Done (h, regs) else rbind (to_runtime h n) (fun v => rbind (heap h v) (fun r => assign (snd r) regs d (fst r)))) (fun q =>
      reg (snd q) d (fun n1 => rbind (heap_ref (fst q) n1) (fun v => Done (<[payload n1 := f v]> (fst q), snd q, Silent)))))
  | Binary k d a b => reg regs a (fun m => reg regs b (fun n => reg regs d (fun _ => rbind (binary h k m n) (fun r =>
      match fst r with None => Done (snd r, regs, Error) | Some x => set regs d (x, snd r) end))))
  end.
Fixpoint run (h : memory) (regs : list Z) (ops : list op) : res (memory * list Z * list shown) :=
  match ops with
  | [] => Done (h, regs, [])
  | o :: ops => rbind (step h regs o) (fun q => rbind (run (fst (fst q)) (snd (fst q)) ops) (fun p => Done (fst p, snd q :: snd p)))
  end.
(** The end of the register file. *)
Fixpoint drop_all (h : memory) (regs : list Z) : res memory := match regs with [] => Done h | n :: regs => rbind (drop_ h n) (fun h1 => drop_all h1 regs) end.

(** The same register file with values as they are (value.rs 76-248, the default build), except that a NaN is stored as the one NaN. *)
Definition norm (v : rv) : rv := match v with RFloat b => RFloat (n_float b) | _ => v end.
Definition vreg (vals : list rv) (s : nat) (f : rv -> res (list rv * shown)) : res (list rv * shown) := match vals !! s with None => Panic | Some v => f v end.
Definition vstep (vals : list rv) (o : op) : res (list rv * shown) :=
  match o with
  | Load d v => vreg vals d (fun _ => Done (<[d := norm v]> vals, Silent))
  | Copy d s => vreg vals s (fun v => vreg vals d (fun _ => Done (<[d := v]> vals, Silent)))
  | Take s => vreg vals s (fun v => Done (<[s := RNothing]> vals, Value v))
  | Read s => vreg vals s (fun v => Done (vals, Value v))
  | Change d f => vreg vals d (fun v => Done (<[d := f v]> vals, Silent))
  | Binary k d a b => vreg vals a (fun v => vreg vals b (fun w => vreg vals d (fun _ => match kern k v w with None => Done (vals, Error) | Some u => Done (<[d := norm u]> vals, Silent) end)))
  end.
Fixpoint vrun (vals : list rv) (ops : list op) : res (list rv * list shown) :=
  match ops with
  | [] => Done (vals, [])
  | o :: ops => rbind (vstep vals o) (fun q => rbind (vrun (fst q) ops) (fun p => Done (fst p, snd q :: snd p)))
  end.
End Nanbox.
Arguments rv : clear implicits. Arguments res : clear implicits. Arguments op : clear implicits. Arguments shown : clear implicits.
Arguments Done {A}. Arguments Abort {A}. Arguments Fault {A}. Arguments Panic {A}.
