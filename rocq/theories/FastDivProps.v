(** C44: strength-reduced division is exact.

    [new d] builds the helper for divisor [d] ([None] would be a panic), [div] and
    [rem] use it. The specification is Coq's integer division [n / d] and
    remainder [n mod d], which for non-negative operands are the hardware ones. *)
From Coq Require Import ZArith.
From Verif Require Import MachInt FastDivModel FastDivProofs.
Open Scope Z_scope.

(** For every divisor 1..2^64-1 building the helper does not panic, and for every
    64-bit dividend neither operation panics and both agree with division. *)
Theorem C44_fast_division_exact :
  forall d n : Z, 1 <= d < 2 ^ 64 -> 0 <= n < 2 ^ 64 ->
  exists s, new d = Some s /\ div s n = Some (n / d) /\ rem s n = Some (n mod d).
Proof.
  intros d n Hd Hn.
  destruct (new_div_correct d n Hd Hn) as (s & E1 & E2 & _).
  destruct (new_rem_correct d n Hd Hn) as (s' & E1' & E3).
  rewrite E1 in E1'. injection E1' as <-.
  exists s. exact (conj E1 (conj E2 E3)).
Qed.

(** The three code paths are all exercised: shift, 64-bit magic, 65-bit magic. *)
Example C44_shift_path :
  new 8 = Some {| magic := 0; more := 131; dvs := 8 |}.
Proof. vm_compute. reflexivity. Qed.

Example C44_plain_path :
  new 10 = Some {| magic := 14757395258967641293; more := 3; dvs := 10 |}.
Proof. vm_compute. reflexivity. Qed.

Example C44_add_path :
  new 7 = Some {| magic := 2635249153387078803; more := 66; dvs := 7 |} /\
  div {| magic := 2635249153387078803; more := 66; dvs := 7 |} (2 ^ 64 - 1)
  = Some ((2 ^ 64 - 1) / 7).
Proof. vm_compute. split; reflexivity. Qed.

Print Assumptions C44_fast_division_exact.
