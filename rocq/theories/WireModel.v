(** Model of [crates/logicaffeine_data/src/wire.rs] and of the codecs that
    [crates/logicaffeine_compile/src/codegen/types.rs] generates for enums. Bytes are [Z]
    values. A reader with [buf, pos] is a function of the remaining bytes [buf[pos..]] that
    returns the value and the bytes then remaining; [None] is the [None] of the Rust code. *)
From Coq Require Import ZArith List.
From stdpp Require Import list.
From Verif Require Import MachInt Utf8.
Open Scope Z_scope.

(** wire.rs:15-31. *)
Definition T_FALSE : Z := 1.
Definition T_TRUE : Z := 2.
Definition T_INT : Z := 3.
Definition T_FLOAT : Z := 4.
Definition T_TEXT : Z := 6.
Definition T_LIST : Z := 13.
Definition T_INDUCTIVE : Z := 18.

(** wire.rs:37-43 [write_uvarint]; a [u64] needs at most ten rounds. *)
Fixpoint uvarint_steps (n : nat) (x : Z) : list Z :=
  match n with
  | O => []
  | S n => if 128 <=? x then Z.lor (x mod 256) 128 :: uvarint_steps n (Z.shiftr x 7) else [x mod 256]
  end.
Definition write_uvarint (x : Z) : list Z := uvarint_steps 10 x.

(** wire.rs:47-62 [read_uvarint]. *)
Fixpoint read_uvarint_loop (result shift : Z) (bs : list Z) : option (Z * list Z) :=
  match bs with
  | [] => None
  | b :: bs =>
      if 64 <=? shift then None
      else
        let result := Z.lor result (wrap64 (Z.shiftl (Z.land b 127) shift)) in
        if Z.land b 128 =? 0 then Some (result, bs) else read_uvarint_loop result (shift + 7) bs
  end.
Definition read_uvarint (bs : list Z) : option (Z * list Z) := read_uvarint_loop 0 0 bs.

(** wire.rs:66-74. [x << 1] drops the top bit; [x >> 63] is the arithmetic shift. *)
Definition zigzag (x : Z) : Z := wrap64 (Z.lxor (wrap_i64 (Z.shiftl x 1)) (Z.shiftr x 63)).
Definition unzigzag (x : Z) : Z := Z.lxor (wrap_i64 (Z.shiftr x 1)) (- Z.land x 1).

(** wire.rs:78-90; strings are texts (lists of characters), written as UTF-8. *)
Definition write_str (s : list Z) : list Z := write_uvarint (Z.of_nat (blen s)) ++ bytes s.
Definition read_str (bs : list Z) : option (list Z * list Z) :=
  match read_uvarint bs with
  | None => None
  | Some (n, bs) =>
      if Z.of_nat (length bs) <? n then None
      else match from_utf8 (take (Z.to_nat n) bs) with
           | None => None
           | Some s => Some (s, drop (Z.to_nat n) bs)
           end
  end.

(** wire.rs:94-101. *)
Definition expect_tag (bs : list Z) (expected : Z) : option (list Z) :=
  match bs with
  | t :: bs => if t =? expected then Some bs else None
  | [] => None
  end.

(** wire.rs:108-124. *)
Definition write_inductive_header (type_name constructor : list Z) (nargs : Z) : list Z :=
  T_INDUCTIVE :: write_str type_name ++ write_str constructor ++ write_uvarint nargs.
Definition read_inductive_header (bs : list Z) : option (list Z * list Z * Z * list Z) :=
  match expect_tag bs T_INDUCTIVE with
  | None => None
  | Some bs =>
      match read_str bs with
      | None => None
      | Some (type_name, bs) =>
          match read_str bs with
          | None => None
          | Some (constructor, bs) =>
              match read_uvarint bs with
              | None => None
              | Some (n, bs) => Some (type_name, constructor, n, bs)
              end
          end
      end
  end.

(** [f64::to_le_bytes]/[from_le_bytes]; a float is its 64 bits. *)
Fixpoint le_bytes (n : nat) (x : Z) : list Z := match n with O => [] | S n => x mod 256 :: le_bytes n (x / 256) end.
Fixpoint from_le (bs : list Z) : Z := match bs with [] => 0 | b :: bs => b + 256 * from_le bs end.

(** The types with a codec: the implementations of wire.rs:140-252 ([Box<T>] writes as [T],
    [LogosSeq<T>] as [Vec<T>]) and generated enums, by name. *)
Inductive wty := WInt | WBool | WFloat | WText | WSeq (t : wty) | WEnum (name : list Z).
(** A program's enum declarations: name, and for each variant its name and field types. *)
Notation wenv := (list (list Z * list (list Z * list wty))).
Fixpoint assoc {A} (k : list Z) (l : list (list Z * A)) : option A :=
  match l with [] => None | (k', v) :: l => if bool_decide (k = k') then Some v else assoc k l end.

Inductive wval :=
| VInt (x : Z) | VBool (b : bool) | VFloat (bits : Z) | VText (s : list Z)
| VSeq (vs : list wval) | VEnum (type_name constructor : list Z) (args : list wval).

(** wire.rs:140-252 and codegen/types.rs:70-90 [wire_encode]. *)
Fixpoint wire_encode (v : wval) : list Z :=
  match v with
  | VInt x => T_INT :: write_uvarint (zigzag x)
  | VBool b => [if b then T_TRUE else T_FALSE]
  | VFloat bits => T_FLOAT :: le_bytes 8 bits
  | VText s => T_TEXT :: write_str s
  | VSeq vs => T_LIST :: write_uvarint (Z.of_nat (length vs)) ++ concat (map wire_encode vs)
  | VEnum ty c args => write_inductive_header ty c (Z.of_nat (length args)) ++ concat (map wire_encode args)
  end.

(** wire.rs:146-252 and codegen/types.rs:92-115 [wire_decode]. Recursion and the element loop are
    bounded by a step count; that the bound given by [wire_decode] never matters is proved. *)
Fixpoint dec (n : nat) (env : wenv) (ty : wty) (bs : list Z) {struct n} : option (wval * list Z) :=
  match n with
  | O => None
  | S n =>
      match ty with
      | WInt => match expect_tag bs T_INT with
                | None => None
                | Some bs => match read_uvarint bs with None => None | Some (u, bs) => Some (VInt (unzigzag u), bs) end
                end
      | WBool => match bs with
                 | [] => None
                 | t :: bs => if t =? T_TRUE then Some (VBool true, bs) else if t =? T_FALSE then Some (VBool false, bs) else None
                 end
      | WFloat => match expect_tag bs T_FLOAT with
                  | None => None
                  | Some bs => if Nat.ltb (length bs) 8 then None else Some (VFloat (from_le (take 8 bs)), drop 8 bs)
                  end
      | WText => match expect_tag bs T_TEXT with
                 | None => None
                 | Some bs => match read_str bs with None => None | Some (s, bs) => Some (VText s, bs) end
                 end
      | WSeq t => match expect_tag bs T_LIST with
                  | None => None
                  | Some bs =>
                      match read_uvarint bs with
                      | None => None
                      | Some (k, bs) => match dec_many n env t k bs with None => None | Some (vs, bs) => Some (VSeq vs, bs) end
                      end
                  end
      | WEnum name => match read_inductive_header bs with
                      | None => None
                      | Some (_, c, _, bs) =>
                          match assoc name env with
                          | None => None
                          | Some variants =>
                              match assoc c variants with
                              | None => None
                              | Some tys => match dec_fields n env tys bs with None => None | Some (vs, bs) => Some (VEnum name c vs, bs) end
                              end
                          end
                      end
      end
  end
with dec_many (n : nat) (env : wenv) (t : wty) (k : Z) (bs : list Z) {struct n} : option (list wval * list Z) :=
  if k =? 0 then Some ([], bs)
  else match n with
       | O => None
       | S n => match dec n env t bs with
                | None => None
                | Some (v, bs) => match dec_many n env t (k - 1) bs with None => None | Some (vs, bs) => Some (v :: vs, bs) end
                end
       end
with dec_fields (n : nat) (env : wenv) (tys : list wty) (bs : list Z) {struct n} : option (list wval * list Z) :=
  match tys with
  | [] => Some ([], bs)
  | t :: tys =>
      match n with
      | O => None
      | S n => match dec n env t bs with
               | None => None
               | Some (v, bs) => match dec_fields n env tys bs with None => None | Some (vs, bs) => Some (v :: vs, bs) end
               end
      end
  end.
Definition wire_decode (env : wenv) (ty : wty) (bs : list Z) : option (wval * list Z) := dec (2 * length bs + 2) env ty bs.
