(** Model of the specialised [Int -> Int] tables of [crates/logicaffeine_data/src/types.rs]: the
    open-addressing maps and sets [LogosI64Map], [LogosI64Set], [LogosI32Map], [LogosI32Set]
    (lines 459-1076) and the direct-addressed [LogosDenseI64Map], [LogosDenseI64MapNoPresence],
    [LogosDenseI64Set] (lines 1078-1329).

    The four open-addressing types have the same code up to the slot type and the hash, so they are
    instances of one definition: a set stores the unit value. [i64], [i32] and [u64] values are [Z]
    values, [usize] values are [nat] and do not overflow (a table that large cannot be allocated).
    [None] is a panic (an index out of bounds), a probe
    loop that never ends or the undefined behaviour of a false [assert_unchecked]. *)
From Coq Require Import ZArith List.
From stdpp Require Import list.
From Verif Require Import MachInt.
Open Scope Z_scope.

(** [as i32]. *)
Definition wrap_i32 (x : Z) : Z := (x + 2 ^ 31) mod 2 ^ 32 - 2 ^ 31.

(** types.rs:489, 657, 807, 954 [EMPTY]. *)
Definition EMPTY : Z := 0.

(** types.rs:529-537 and 690-696 [slot] before the mask; for [i32] keys (836-842, 982-988) the key is
    first taken as [u32]. *)
Definition mix (h : Z) : Z := let h := (h * 11400714819323198485) mod 2 ^ 64 in Z.lxor h (Z.shiftr h 32).
Definition hash64 (key : Z) : Z := mix (key mod 2 ^ 64).
Definition hash32 (key : Z) : Z := mix (key mod 2 ^ 32).

Section table.
  Context {V : Type} (zero : V) (hash : Z -> Z).

  (** types.rs:476-486 (648-654, 798-804, 946-951). *)
  Record table := Table { entries : list (Z * V); mask : nat; count : nat; has_zero_key : bool; zero_key_val : V }.

  (** types.rs:491-499 [new]. *)
  Definition new : table := Table [] 0 0 false zero.
  (** types.rs:501-513 [with_capacity]. *)
  Definition next_power_of_two (n : nat) : nat := 2 ^ Nat.log2_up n.
  Definition with_capacity (cap : nat) : table :=
    if (0 <? cap)%nat then
      let slots := Nat.max (next_power_of_two (cap * 4 / 3 + 1)) 8 in
      Table (repeat (EMPTY, zero) slots) (slots - 1) 0 false zero
    else new.
  (** types.rs:517-520 [table_len]. *)
  Definition table_len (m : table) : nat := count m - (if has_zero_key m then 1 else 0).
  (** types.rs:529-537 [slot]. *)
  Definition slot (mask : nat) (key : Z) : nat := Z.to_nat (Z.land (hash key) (Z.of_nat mask)).

  (** types.rs:552-565, the loop of [insert]: the place of the first empty slot or of the key. A
      probe visits at most every slot, so [mask + 1] rounds suffice if it ends. *)
  Fixpoint seek (fuel : nat) (t : list (Z * V)) (mask i : nat) (key : Z) : option (nat * bool) :=
    match fuel with
    | O => None
    | S fuel =>
        '(k, _) ← t !! i;
        if k =? EMPTY then Some (i, false)
        else if k =? key then Some (i, true)
        else seek fuel t mask (Nat.land (i + 1) mask) key
    end.
  (** types.rs:575-578, the loop of [grow]: the place of the first empty slot. *)
  Fixpoint seek_empty (fuel : nat) (t : list (Z * V)) (mask i : nat) : option nat :=
    match fuel with
    | O => None
    | S fuel =>
        '(k, _) ← t !! i;
        if k =? EMPTY then Some i else seek_empty fuel t mask (Nat.land (i + 1) mask)
    end.
  (** types.rs:525-527 [assume_table_invariant]: undefined behaviour, [None], when it does not hold. *)
  Definition assume_table_invariant (t : list (Z * V)) (mask : nat) : option unit :=
    if (mask + 1 =? length t)%nat then Some tt else None.
  (** types.rs:573-581, the loop over the old table. *)
  Fixpoint refill (mask : nat) (old t : list (Z * V)) : option (list (Z * V)) :=
    match old with
    | [] => Some t
    | (k, v) :: old =>
        if k =? EMPTY then refill mask old t
        else
          i ← seek_empty (mask + 1) t mask (slot mask k);
          refill mask old (<[i := (k, v)]> t)
    end.
  (** types.rs:568-582 [grow]. *)
  Definition grow (m : table) : option table :=
    let new_slots := if (mask m =? 0)%nat then 8%nat else ((mask m + 1) * 2)%nat in
    _ ← assume_table_invariant (repeat (EMPTY, zero) new_slots) (new_slots - 1);
    t ← refill (new_slots - 1) (entries m) (repeat (EMPTY, zero) new_slots);
    Some (Table t (new_slots - 1) (count m) (has_zero_key m) (zero_key_val m)).
  (** types.rs:539-566 [insert]. *)
  Definition insert (m : table) (key : Z) (value : V) : option table :=
    if key =? EMPTY then
      Some (Table (entries m) (mask m) (if has_zero_key m then count m else S (count m)) true value)
    else
      m ← (if (mask m =? 0)%nat || ((mask m + 1) * 3 <? (table_len m + 1) * 4)%nat then grow m else Some m);
      _ ← assume_table_invariant (entries m) (mask m);
      '(i, found) ← seek (mask m + 1) (entries m) (mask m) (slot (mask m) key) key;
      Some (Table (<[i := (key, value)]> (entries m)) (mask m) (if found : bool then count m else S (count m)) (has_zero_key m) (zero_key_val m)).

  (** types.rs:597-607, the loop of [get]. *)
  Fixpoint find_value (fuel : nat) (t : list (Z * V)) (mask i : nat) (key : Z) : option (option V) :=
    match fuel with
    | O => None
    | S fuel =>
        '(k, v) ← t !! i;
        if k =? key then Some (Some v)
        else if k =? EMPTY then Some None
        else find_value fuel t mask (Nat.land (i + 1) mask) key
    end.
  (** types.rs:584-608 [get]; the sets' [contains_key] (746-766) is whether it finds something. *)
  Definition get (m : table) (key : Z) : option (option V) :=
    if key =? EMPTY then Some (if has_zero_key m then Some (zero_key_val m) else None)
    else if (mask m =? 0)%nat then Some None
    else
      _ ← assume_table_invariant (entries m) (mask m);
      find_value (mask m + 1) (entries m) (mask m) (slot (mask m) key) key.
  (** types.rs:610-612 [contains_key]; 614-616 [len] is [count]; 618-620 [is_empty]. *)
  Definition contains_key (m : table) (key : Z) : option bool := r ← get m key; Some (match r with Some _ => true | None => false end).
  Definition is_empty (m : table) : bool := (count m =? 0)%nat.
End table.
Arguments table : clear implicits.

(** [LogosI64Map] and [LogosI64Set]. *)
Definition i64map_new : table Z := new 0.
Definition i64map_with_capacity (cap : nat) : table Z := with_capacity 0 cap.
Definition i64map_insert (m : table Z) (k v : Z) : option (table Z) := insert 0 hash64 m k v.
Definition i64map_get (m : table Z) (k : Z) : option (option Z) := get hash64 m k.
Definition i64set_new : table unit := new tt.
Definition i64set_with_capacity (cap : nat) : table unit := with_capacity tt cap.
Definition i64set_insert (m : table unit) (k : Z) : option (table unit) := insert tt hash64 m k tt.
Definition i64set_contains (m : table unit) (k : Z) : option bool := contains_key hash64 m k.
(** [LogosI32Map] (844-846 and 891-911: the casts) and [LogosI32Set]. *)
Definition i32map_insert (m : table Z) (k v : Z) : option (table Z) := insert 0 hash32 m (wrap_i32 k) (wrap_i32 v).
Definition i32map_get (m : table Z) (k : Z) : option (option Z) := get hash32 m (wrap_i32 k).
Definition i32set_insert (m : table unit) (k : Z) : option (table unit) := insert tt hash32 m (wrap_i32 k) tt.
Definition i32set_contains (m : table unit) (k : Z) : option bool := contains_key hash32 m (wrap_i32 k).

(** types.rs:1089-1099 [LogosDenseI64Map]. *)
Record dense := Dense { data : list Z; present : list Z; lo : Z; dlen : nat }.
Definition div_ceil64 (n : nat) : nat := (n + 63) / 64.
(** types.rs:1115-1122 [with_bounds]. *)
Definition dense_with_bounds (lo : Z) (slots : nat) : dense := Dense (repeat 0 slots) (repeat 0 (div_ceil64 slots)) lo 0.
(** [(key - self.lo) as usize] in a release build: the difference wraps. *)
Definition dense_index (lo key : Z) : Z := (wrap_i64 (key - lo)) mod 2 ^ 64.
(** [1u64 << (idx & 63)]. *)
Definition dense_bit (idx : Z) : Z := Z.shiftl 1 (Z.land idx 63).
(** types.rs:1125-1140 [insert] (the [debug_assert] is not in a release build). *)
Definition dense_insert (m : dense) (key value : Z) : option dense :=
  let idx := dense_index (lo m) key in
  let bit := dense_bit idx in
  word ← present m !! Z.to_nat (Z.shiftr idx 6);
  _ ← data m !! Z.to_nat idx;
  Some (if Z.land word bit =? 0
        then Dense (<[Z.to_nat idx := value]> (data m)) (<[Z.to_nat (Z.shiftr idx 6) := Z.lor word bit]> (present m)) (lo m) (S (dlen m))
        else Dense (<[Z.to_nat idx := value]> (data m)) (present m) (lo m) (dlen m)).
(** types.rs:1143-1156 [get] and 1159-1163 [contains_key]. *)
Definition dense_get (m : dense) (key : Z) : option (option Z) :=
  let idx := dense_index (lo m) key in
  word ← present m !! Z.to_nat (Z.shiftr idx 6);
  if negb (Z.land word (dense_bit idx) =? 0) then x ← data m !! Z.to_nat idx; Some (Some x) else Some None.
Definition dense_contains (m : dense) (key : Z) : option bool :=
  let idx := dense_index (lo m) key in
  word ← present m !! Z.to_nat (Z.shiftr idx 6); Some (negb (Z.land word (dense_bit idx) =? 0)).

(** types.rs:1198-1242 [LogosDenseI64MapNoPresence]; [present] is absent. *)
Record bare := Bare { bdata : list Z; blo : Z; blen : nat }.
Definition bare_with_bounds (lo : Z) (slots : nat) : bare := Bare (repeat 0 slots) lo 0.
Definition bare_insert (m : bare) (key value : Z) : option bare :=
  let idx := dense_index (blo m) key in
  _ ← bdata m !! Z.to_nat idx;
  Some (Bare (<[Z.to_nat idx := value]> (bdata m)) (blo m) (S (blen m))).
Definition bare_get (m : bare) (key : Z) : option (option Z) :=
  x ← bdata m !! Z.to_nat (dense_index (blo m) key); Some (Some x).

(** types.rs:1265-1307 [LogosDenseI64Set]. *)
Record dset := Dset { spresent : list Z; slo : Z; slen : nat }.
Definition dset_with_bounds (lo : Z) (slots : nat) : dset := Dset (repeat 0 (div_ceil64 slots)) lo 0.
Definition dset_insert (m : dset) (key : Z) : option dset :=
  let idx := dense_index (slo m) key in
  word ← spresent m !! Z.to_nat (Z.shiftr idx 6);
  Some (if Z.land word (dense_bit idx) =? 0
        then Dset (<[Z.to_nat (Z.shiftr idx 6) := Z.lor word (dense_bit idx)]> (spresent m)) (slo m) (S (slen m))
        else m).
Definition dset_contains (m : dset) (key : Z) : option bool :=
  let idx := dense_index (slo m) key in
  word ← spresent m !! Z.to_nat (Z.shiftr idx 6); Some (negb (Z.land word (dense_bit idx) =? 0)).
