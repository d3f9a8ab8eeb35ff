(** Model of the journals: crates/logicaffeine_system/src/storage/mod.rs lines 57–300 and
    crates/logicaffeine_system/src/distributed.rs lines 59–350, over the native file system of
    crates/logicaffeine_system/src/fs/mod.rs lines 207–276. The state type, its [Merge] and its
    bincode codec are parameters; the checksum is CRC-32 as computed by [crc32fast]. *)
From Coq Require Import NArith List Strings.Byte.
From stdpp Require Import list.
From Verif Require Import FecModel.
Open Scope nat_scope.

(** ** CRC-32 (IEEE 802.3, reflected), the function of [crc32fast::hash]. *)
Definition crc_bit (s : N) : N := if N.odd s then N.lxor (N.shiftr s 1) 3988292384 else N.shiftr s 1.
Definition crc_bits (n : nat) (s : N) : N := Nat.iter n crc_bit s.
Definition crc_byte (s : N) (b : byte) : N := crc_bits 8 (N.lxor s (Byte.to_N b)).
Definition crc32 (bs : list byte) : N := N.lxor (fold_left crc_byte bs 4294967295%N) 4294967295.

(** ** Entries *)
(** storage/mod.rs 58–64, distributed.rs 59–66. *)
Inductive op (T : Type) := Snapshot (s : T) | Delta (d : T).
Arguments Snapshot {T} s. Arguments Delta {T} d.
(** storage/mod.rs 73–81. *)
Definition header (payload : list byte) : list byte := le 4 (N.of_nat (length payload)) ++ le 4 (crc32 payload).
(** storage/mod.rs 83–87. *)
Definition decode_header (h : list byte) : nat * N := (N.to_nat (unle (take 4 h)), unle (drop 4 h)).

(** A type that can be kept in a journal. *)
Record journalled (T : Type) := Journalled {
  jmerge : T -> T -> T;                 (* Merge::merge *)
  jser : op T -> list byte;             (* bincode::serialize *)
  jde : list byte -> option (op T);     (* bincode::deserialize *)
}.
Arguments jmerge {T}. Arguments jser {T}. Arguments jde {T}.

(** storage/mod.rs 207–214. *)
Definition entry {T} (J : journalled T) (o : op T) : list byte := header (jser J o) ++ jser J o.

Inductive outcome (T : Type) := Ok (state : T) (entries : nat) | Corrupted (entries : nat) | Undecodable (entries : nat).
Arguments Ok {T}. Arguments Corrupted {T}. Arguments Undecodable {T}.
(** storage/mod.rs 154–157. *)
Definition apply_op {T} (J : journalled T) (state : T) (o : op T) : T := match o with Snapshot s => s | Delta d => jmerge J state d end.
(** The loop of [replay_journal], storage/mod.rs 128–164; [data] is what follows [pos]. The steps
    bound is never reached ([replay_steps]). *)
Fixpoint replay_loop {T} (J : journalled T) (steps : nat) (data : list byte) (state : T) (entries : nat) : outcome T :=
  match steps with
  | O => Ok state entries
  | S steps =>
      if length data <? 8 then Ok state entries else
      let '(len, sum) := decode_header (take 8 data) in
      let rest := drop 8 data in
      if length rest <? len then Ok state entries else
      let payload := take len rest in
      if negb (crc32 payload =? sum)%N then Corrupted entries else
      match jde J payload with
      | None => Undecodable entries
      | Some o => replay_loop J steps (drop len rest) (apply_op J state o) (S entries)
      end
  end.
(** storage/mod.rs 119–165. [d0] is the result of [T::default()], which for some types is a fresh
    value with a random replica number. *)
Definition replay {T} (J : journalled T) (d0 : T) (data : list byte) : outcome T := replay_loop J (S (length data)) data d0 0.

(** ** Persistent *)
(** The object together with the file it owns; a missing file is [None]. *)
Record persistent (T : Type) := P { inner : T; file : option (list byte); count : N }.
Arguments P {T}. Arguments inner {T}. Arguments file {T}. Arguments count {T}.
(** storage/mod.rs 178–194; errors are kept apart. *)
Definition mount {T} (J : journalled T) (d0 : T) (f : option (list byte)) : persistent T + outcome T :=
  match f with
  | None => inl (P d0 None 0)
  | Some data => match replay J d0 data with Ok s n => inl (P s (Some data) (N.of_nat n)) | e => inr e end
  end.
(** fs/mod.rs 235–255. *)
Definition append (f : option (list byte)) (bs : list byte) : option (list byte) := Some (default [] f ++ bs).
(** storage/mod.rs 202–224. *)
Definition mutate {T} (J : journalled T) (g : T -> T) (p : persistent T) : persistent T :=
  let s := g (inner p) in P s (append (file p) (entry J (Delta s))) (count p + 1).
(** storage/mod.rs 227–243. *)
Definition compact {T} (J : journalled T) (p : persistent T) : persistent T := P (inner p) (Some (entry J (Snapshot (inner p)))) 1.
(** storage/mod.rs 251–258. *)
Definition maybe_compact {T} (J : journalled T) (threshold : N) (p : persistent T) : persistent T * bool :=
  if (threshold <? count p)%N then (compact J p, true) else (p, false).

(** Files a crash can leave. [append] may have written any prefix; [write] goes through a temporary
    file and a rename (fs/mod.rs 219–233), so the old or the new content is there. *)
Definition crash_append (f : option (list byte)) (bs : list byte) (f' : option (list byte)) : Prop := f' = f \/ exists t u, bs = t ++ u /\ f' = append f t.
Definition crash_write (f : option (list byte)) (bs : list byte) (f' : option (list byte)) : Prop := f' = f \/ f' = Some bs.

(** ** Distributed *)
Definition COMPACT_THRESHOLD : N := 1000.
(** distributed.rs 223–251 when nothing else touches the value. The network is not modelled. *)
Definition dist_mutate {T} (J : journalled T) (g : T -> T) (p : persistent T) : persistent T :=
  let p := mutate J g p in if (COMPACT_THRESHOLD <=? count p)%N then compact J p else p.
(** distributed.rs 275–318: one message from the network. *)
Definition dist_receive {T} (J : journalled T) (d : T) (p : persistent T) : persistent T :=
  P (jmerge J (inner p) d) (append (file p) (entry J (Delta d))) (count p + 1).

(** ** Several tasks at once *)
(** What is shared, and each task's local copy of the state. [inner] is only touched under its
    lock; file operations and lock-protected accesses are single steps. *)
Record shared (T : Type) := Sh { ram : T; disk : option (list byte); tmp : option (list byte); entries : N; local : nat -> option T }.
Arguments Sh {T}. Arguments ram {T}. Arguments disk {T}. Arguments tmp {T}. Arguments entries {T}. Arguments local {T}.
Inductive step (T : Type) :=
  | SApply (t : nat) (g : T -> T)   (* distributed.rs 228–231: mutate and clone under the lock *)
  | SMerge (t : nat) (d : T)        (* distributed.rs 293: merge a received delta *)
  | SAppend (t : nat)               (* distributed.rs 234, 334–336; 309–316: append and count *)
  | SClone (t : nat)                (* distributed.rs 261, 345; storage/mod.rs 228: copy the state *)
  | SWriteTmp (t : nat)             (* distributed.rs 363 *)
  | SRename (t : nat)               (* distributed.rs 364, 366; storage/mod.rs 239–240 *).
Arguments SApply {T}. Arguments SMerge {T}. Arguments SAppend {T}. Arguments SClone {T}. Arguments SWriteTmp {T}. Arguments SRename {T}.
Definition set_local {T} (l : nat -> option T) (t : nat) (x : option T) : nat -> option T := fun u => if u =? t then x else l u.
Definition do_step {T} (J : journalled T) (sh : shared T) (e : step T) : shared T :=
  match e with
  | SApply t g => let s := g (ram sh) in Sh s (disk sh) (tmp sh) (entries sh) (set_local (local sh) t (Some s))
  | SMerge t d => Sh (jmerge J (ram sh) d) (disk sh) (tmp sh) (entries sh) (set_local (local sh) t (Some d))
  | SAppend t => match local sh t with None => sh | Some s => Sh (ram sh) (append (disk sh) (entry J (Delta s))) (tmp sh) (entries sh + 1) (set_local (local sh) t None) end
  | SClone t => Sh (ram sh) (disk sh) (tmp sh) (entries sh) (set_local (local sh) t (Some (ram sh)))
  | SWriteTmp t => match local sh t with None => sh | Some s => Sh (ram sh) (disk sh) (Some (entry J (Snapshot s))) (entries sh) (local sh) end
  | SRename t => match tmp sh with None => sh | Some bs => Sh (ram sh) (Some bs) None 1 (set_local (local sh) t None) end
  end.
