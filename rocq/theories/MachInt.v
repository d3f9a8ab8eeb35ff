(** Machine integers as [Z] with explicit ranges, wrap-around and overflow checks.

    Rust's [u64]/[u128]/[i64] values are modelled by [Z]. Arithmetic which panics on
    overflow (debug profile) is modelled by the [checked_*] functions, which return
    [None] for the panic; [wrapping_*] methods are modelled by [mod]. *)
From Coq Require Import ZArith Lia.
Open Scope Z_scope.

Definition two64 : Z := 2 ^ 64.

Definition is_u64 (x : Z) : Prop := 0 <= x < two64.
Definition is_i64 (x : Z) : Prop := - 2 ^ 63 <= x < 2 ^ 63.

Definition in_u64 (x : Z) : bool := (0 <=? x) && (x <? two64).
Definition in_i64 (x : Z) : bool := (- 2 ^ 63 <=? x) && (x <? 2 ^ 63).

(** [x as u64] / [wrapping_*] on u64. *)
Definition wrap64 (x : Z) : Z := x mod two64.

(** [x as i64], reinterpretation of the low 64 bits as two's complement. *)
Definition wrap_i64 (x : Z) : Z :=
  let y := x mod two64 in if y <? 2 ^ 63 then y else y - two64.

Definition checked_u64 (x : Z) : option Z := if in_u64 x then Some x else None.
Definition checked_i64 (x : Z) : option Z := if in_i64 x then Some x else None.

Lemma in_u64_spec x : in_u64 x = true <-> is_u64 x.
Proof.
  unfold in_u64, is_u64. rewrite Bool.andb_true_iff, Z.leb_le, Z.ltb_lt. tauto.
Qed.

Lemma in_i64_spec x : in_i64 x = true <-> is_i64 x.
Proof.
  unfold in_i64, is_i64. rewrite Bool.andb_true_iff, Z.leb_le, Z.ltb_lt. tauto.
Qed.

Lemma checked_u64_ok x : is_u64 x -> checked_u64 x = Some x.
Proof. intros H. unfold checked_u64. now rewrite (proj2 (in_u64_spec x) H). Qed.

Lemma checked_i64_ok x : is_i64 x -> checked_i64 x = Some x.
Proof. intros H. unfold checked_i64. now rewrite (proj2 (in_i64_spec x) H). Qed.

Lemma wrap64_small x : is_u64 x -> wrap64 x = x.
Proof. intros H. apply Z.mod_small. exact H. Qed.

Lemma two64_pos : 0 < two64.
Proof. reflexivity. Qed.

Lemma wrap64_range x : is_u64 (wrap64 x).
Proof. apply Z.mod_pos_bound. apply two64_pos. Qed.
