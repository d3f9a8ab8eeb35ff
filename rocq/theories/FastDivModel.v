(** Model of [LogosDivU64], the precomputed-divisor replacement for [/] and [%].
    Source: crates/logicaffeine_data/src/types.rs:1345-1405. *)
From Coq Require Import ZArith Bool.
From Verif Require Import MachInt.
Open Scope Z_scope.

(** types.rs:1346-1352. The struct. [more] is a [u8] bit field, kept as [Z]. *)
Record divu64 := { magic : Z; more : Z; dvs : Z }.

(** types.rs:1355-1357. *)
Definition SHIFT_MASK : Z := 63.   (* 0x3F *)
Definition ADD_MARKER : Z := 64.   (* 0x40 *)
Definition SHIFT_PATH : Z := 128.  (* 0x80 *)

(** [u64::trailing_zeros] on a non-zero value (Rust core intrinsic). *)
Fixpoint ctz_pos (p : positive) : Z :=
  match p with
  | xO q => 1 + ctz_pos q
  | _ => 0
  end.
Definition ctz (d : Z) : Z := match d with Zpos p => ctz_pos p | _ => 64 end.

(** [u64::leading_zeros] (Rust core intrinsic). *)
Definition clz (d : Z) : Z := if d =? 0 then 64 else 63 - Z.log2 d.

(** types.rs:1363-1386, [LogosDivU64::new]. [None] stands for a panic: the debug
    assertion on a zero divisor, or an overflow in one of the unchecked [+]/[-].
    [as u64] is [wrap64]. *)
Definition new (d : Z) : option divu64 :=
  if d =? 0 then None
  else if Z.land d (d - 1) =? 0 then
    Some {| magic := 0; more := Z.lor (ctz d) SHIFT_PATH; dvs := d |}
  else
    let k := 63 - clz d in
    let numer := 2 ^ (64 + k) in
    let proposed_m := wrap64 (numer / d) in
    let rem := wrap64 (numer mod d) in
    match checked_u64 (d - rem) with
    | None => None
    | Some e =>
      if e <? 2 ^ k then
        match checked_u64 (proposed_m + 1) with
        | None => None
        | Some m => Some {| magic := m; more := k; dvs := d |}
        end
      else
        let twice_rem := wrap64 (rem * 2) in
        let bump := if (d <=? twice_rem) || (twice_rem <? rem) then 1 else 0 in
        match checked_u64 (wrap64 (wrap64 (proposed_m * 2) + bump) + 1) with
        | None => None
        | Some m => Some {| magic := m; more := Z.lor k ADD_MARKER; dvs := d |}
        end
    end.

(** types.rs:1389-1400, [LogosDivU64::div]. [None] = overflow panic in [numer - q]. *)
Definition div (s : divu64) (numer : Z) : option Z :=
  if negb (Z.land (more s) SHIFT_PATH =? 0) then
    Some (Z.shiftr numer (Z.land (more s) SHIFT_MASK))
  else
    let q := wrap64 (Z.shiftr (magic s * numer) 64) in
    if negb (Z.land (more s) ADD_MARKER =? 0) then
      match checked_u64 (numer - q) with
      | None => None
      | Some dlt =>
        let t := wrap64 (Z.shiftr dlt 1 + q) in
        Some (Z.shiftr t (Z.land (more s) SHIFT_MASK))
      end
    else Some (Z.shiftr q (more s)).

(** types.rs:1403-1405, [LogosDivU64::rem]. *)
Definition rem (s : divu64) (numer : Z) : option Z :=
  match div s numer with
  | None => None
  | Some q => checked_u64 (numer - wrap64 (q * dvs s))
  end.
