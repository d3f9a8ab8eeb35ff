(** The identities of IEEE arithmetic used by the constant folder. *)
From Coq Require Import ZArith Reals Lia Lra.
From Flocq Require Import Core IEEE754.BinarySingleNaN.
From Verif Require Import FoldModel.
Open Scope R_scope.

Lemma fone_R : B2R fone = 1.
Proof. apply Bone_correct. Qed.
Lemma fone_finite : is_finite fone = true.
Proof. reflexivity. Qed.
Lemma fone_sign : Bsign fone = false.
Proof. reflexivity. Qed.
Lemma round_same (x : f64) : round radix2 (SpecFloat.fexp 53 1024) (round_mode mode_NE) (B2R x) = B2R x.
Proof. apply round_generic; [apply valid_rnd_round_mode | apply generic_format_B2R]. Qed.
Lemma small (x : f64) : Rlt_bool (Rabs (B2R x)) (bpow radix2 1024) = true.
Proof. apply Rlt_bool_true, abs_B2R_lt_emax. Qed.
Lemma fmul_one_r (x : f64) : fmul x fone = x.
Proof.
  unfold fmul. destruct x as [s | s | | s m e H]; [destruct s; reflexivity | destruct s; reflexivity | reflexivity |]. set (x := B754_finite s m e H : f64).
  pose proof (Bmult_correct 53 1024 _ _ mode_NE x fone) as C. rewrite fone_R, Rmult_1_r, round_same, small in C. destruct C as (CR & CF & CS).
  assert (F : is_finite (Bmult mode_NE x fone) = true) by (rewrite CF; reflexivity).
  apply B2R_Bsign_inj; [exact F | reflexivity | exact CR |].
  rewrite CS; [destruct s; reflexivity |]. destruct (Bmult mode_NE x fone); try discriminate; reflexivity.
Qed.
Lemma fmul_one_l (x : f64) : fmul fone x = x.
Proof.
  unfold fmul. destruct x as [s | s | | s m e H]; [destruct s; reflexivity | destruct s; reflexivity | reflexivity |]. set (x := B754_finite s m e H : f64).
  pose proof (Bmult_correct 53 1024 _ _ mode_NE fone x) as C. rewrite fone_R, Rmult_1_l, round_same, small in C. destruct C as (CR & CF & CS).
  assert (F : is_finite (Bmult mode_NE fone x) = true) by (rewrite CF; reflexivity).
  apply B2R_Bsign_inj; [exact F | reflexivity | exact CR |].
  rewrite CS; [destruct s; reflexivity |]. destruct (Bmult mode_NE fone x); try discriminate; reflexivity.
Qed.
Lemma fdiv_one (x : f64) : fdiv x fone = x.
Proof.
  unfold fdiv. destruct x as [s | s | | s m e H]; [destruct s; reflexivity | destruct s; reflexivity | reflexivity |]. set (x := B754_finite s m e H : f64).
  pose proof (Bdiv_correct 53 1024 _ _ mode_NE x fone) as C. rewrite fone_R in C. specialize (C ltac:(lra)). unfold Rdiv in C. rewrite Rinv_1, Rmult_1_r, round_same, small in C. destruct C as (CR & CF & CS).
  assert (F : is_finite (Bdiv mode_NE x fone) = true) by (rewrite CF; reflexivity).
  apply B2R_Bsign_inj; [exact F | reflexivity | exact CR |].
  rewrite CS; [destruct s; reflexivity |]. destruct (Bdiv mode_NE x fone); try discriminate; reflexivity.
Qed.
Lemma fsub_zero (x : f64) b : ~ (x = fzero true /\ b = true) -> fsub x (fzero b) = x.
Proof.
  intros N. unfold fsub. destruct x as [s | s | | s m e H]; destruct b; try (destruct s; try reflexivity); try reflexivity. exfalso. apply N. split; reflexivity.
Qed.
Lemma is_zero_f_spec f : is_zero_f f = true <-> exists b, f = fzero b.
Proof.
  split; [| intros (b & ->); destruct b; reflexivity]. unfold is_zero_f. destruct f as [s | s | | s m e H]; [exists s; reflexivity | | |]; try discriminate; destruct s; discriminate.
Qed.
Lemma is_one_spec (f : f64) : Beqb f fone = true <-> f = fone.
Proof.
  split; [| intros ->; reflexivity]. intros E. destruct f as [s | s | | s m e H]; try (destruct s; discriminate); try discriminate. set (x := B754_finite s m e H : f64) in *.
  pose proof (Beqb_correct 53 1024 x fone eq_refl eq_refl) as C. rewrite E in C. symmetry in C. destruct (Req_bool_spec (B2R x) (B2R fone)) as [Er | Er]; [| discriminate].
  apply B2R_Bsign_inj; [reflexivity | reflexivity | exact Er |]. rewrite fone_R in Er. rewrite fone_sign. cbn [Bsign x]. destruct s; [| reflexivity]. exfalso.
  assert (N : B2R x < 0); [| lra]. cbn. apply F2R_lt_0. reflexivity.
Qed.
