(** Model of [crates/logicaffeine_system/src/network/sipping.rs]. A mapped zone is its list of
    bytes. [usize] is 64 bits wide and wraps (release profile). [None] is a panic. The hash
    function is a parameter. *)
From Coq Require Import ZArith List.
From stdpp Require Import list.
From Verif Require Import MachInt.
Open Scope Z_scope.

Section sipper.
  Context {byte hash : Type} (sha : list byte -> hash).

  (** sipping.rs:56-60; [file_id], a random name, is left out. *)
  Record sipper := { sp_zone : list byte; sp_chunk_size : Z }.

  Definition zlen (l : list byte) : Z := Z.of_nat (length l).
  (** [&slice[start..end]]. *)
  Definition slice (l : list byte) (a b : Z) : option (list byte) :=
    if (a <=? b) && (b <=? zlen l) then Some (take (Z.to_nat (b - a)) (drop (Z.to_nat a) l)) else None.

  (** sipping.rs:87-94. Division by a zero chunk size panics. *)
  Definition chunk_count (s : sipper) : option Z :=
    let size := zlen (sp_zone s) in
    if size =? 0 then Some 0
    else if sp_chunk_size s =? 0 then None
    else Some (wrap64 (size + sp_chunk_size s - 1) / sp_chunk_size s).

  (** sipping.rs:100-109. *)
  Definition get_chunk (s : sipper) (index : Z) : option (list byte) :=
    let start := wrap64 (index * sp_chunk_size s) in
    let fin := Z.min (wrap64 (start + sp_chunk_size s)) (zlen (sp_zone s)) in
    if zlen (sp_zone s) <=? start then Some [] else slice (sp_zone s) start fin.

  (** sipping.rs:112-117. *)
  Definition hash_chunk (s : sipper) (index : Z) : option hash := sha <$> get_chunk s index.

  (** sipping.rs:125-139; total size, chunk size, count and hashes. *)
  Record manifest := { mf_total : Z; mf_chunk_size : Z; mf_count : Z; mf_hashes : list hash }.
  Fixpoint hashes_from (s : sipper) (n : nat) (i : Z) : option (list hash) :=
    match n with
    | O => Some []
    | S n => match hash_chunk s i, hashes_from s n (i + 1) with
             | Some h, Some hs => Some (h :: hs)
             | _, _ => None
             end
    end.
  Definition make_manifest (s : sipper) : option manifest :=
    match chunk_count s with
    | None => None
    | Some c => match hashes_from s (Z.to_nat c) 0 with
                | None => None
                | Some hs => Some {| mf_total := zlen (sp_zone s); mf_chunk_size := sp_chunk_size s; mf_count := c; mf_hashes := hs |}
                end
    end.

  (** sipping.rs:145-154. *)
  Record chunk := { ck_index : Z; ck_data : list byte; ck_hash : hash }.
  Definition get_chunk_with_hash (s : sipper) (index : Z) : option chunk :=
    match get_chunk s index, hash_chunk s index with
    | Some d, Some h => Some {| ck_index := index; ck_data := d; ck_hash := h |}
    | _, _ => None
    end.
End sipper.
Arguments sipper : clear implicits.
Arguments manifest : clear implicits.
Arguments chunk : clear implicits.
Arguments Build_sipper {byte}.
