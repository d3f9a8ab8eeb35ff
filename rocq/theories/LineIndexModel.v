(** Model of [crates/logicaffeine_lsp/src/line_index.rs]. Byte offsets are [nat]; [u32] values
    are [Z] and [as u32] truncates. [None] is a panic. *)
From Coq Require Import ZArith List.
From stdpp Require Import list.
From Verif Require Import Utf8.
Open Scope Z_scope.

Definition two32 : Z := 4294967296.
Definition as_u32 (n : nat) : Z := Z.of_nat n mod two32.
(** lsp_types [Position]. *)
Record lsp_pos := Pos { p_line : Z; p_char : Z }.

(** line_index.rs:9-14. *)
Record line_index := LineIndex { li_starts : list nat; li_source : list Z }.

(** line_index.rs:17-28 [new]. *)
Fixpoint starts_from (i : nat) (bs : list Z) : list nat :=
  match bs with
  | [] => []
  | b :: bs => if b =? 10 then S i :: starts_from (S i) bs else starts_from (S i) bs
  end.
Definition li_new (source : list Z) : line_index := LineIndex (0%nat :: starts_from 0 (bytes source)) source.

(** [partition_point] on a sorted vector: the number of leading elements that satisfy the test. *)
Fixpoint partition_point (f : nat -> bool) (l : list nat) : nat :=
  match l with [] => 0 | x :: l => if f x then S (partition_point f l) else 0 end.

(** line_index.rs:33-49 [position]. *)
Definition position (li : line_index) (byte_offset : nat) : option lsp_pos :=
  let byte_offset := Nat.min byte_offset (blen (li_source li)) in
  let line := (partition_point (fun start => Nat.leb start byte_offset) (li_starts li) - 1)%nat in
  match li_starts li !! line with
  | None => None
  | Some line_start =>
      match str_slice (li_source li) line_start byte_offset with
      | None => None
      | Some line_text => Some (Pos (as_u32 line) (as_u32 (utf16_count line_text)))
      end
  end.

(** line_index.rs:53-58 [line_start_offset]. *)
Definition line_start_offset (li : line_index) (line : nat) : nat := default (blen (li_source li)) (li_starts li !! line).

(** line_index.rs:61-68 [utf16_length]. *)
Definition utf16_length (li : line_index) (byte_start byte_end : nat) : option Z :=
  let start := Nat.min byte_start (blen (li_source li)) in
  let fin := Nat.min byte_end (blen (li_source li)) in
  if Nat.leb fin start then Some 0
  else match str_slice (li_source li) start fin with Some t => Some (as_u32 (utf16_count t)) | None => None end.

(** line_index.rs:88-93, the loop over [char_indices]. *)
Fixpoint offset_scan (line_start byte_idx : nat) (utf16_offset target : Z) (t : list Z) : option nat :=
  match t with
  | [] => None
  | ch :: t =>
      if target <=? utf16_offset then Some (line_start + byte_idx)%nat
      else offset_scan line_start (byte_idx + len_utf8 ch) ((utf16_offset + Z.of_nat (len_utf16 ch)) mod two32) target t
  end.
(** line_index.rs:71-96 [offset]. *)
Definition offset (li : line_index) (p : lsp_pos) : option nat :=
  let line := Z.to_nat (p_line p) in
  match li_starts li !! line with
  | None => Some (blen (li_source li))
  | Some line_start =>
      let line_end := default (blen (li_source li)) (li_starts li !! (line + 1)%nat) in
      match str_slice (li_source li) line_start line_end with
      | None => None
      | Some line_text =>
          match offset_scan line_start 0 0 (p_char p) line_text with
          | Some o => Some o
          | None => Some line_end
          end
      end
  end.
