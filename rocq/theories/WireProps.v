(** C24, C25: the wire encoding of numbers and values. *)
From Coq Require Import ZArith List Lia.
From stdpp Require Import list.
From Verif Require Import MachInt BitLemmas Utf8 WireModel WireProofs.
Open Scope Z_scope.

(** ** C24: variable-length integers *)

(** Any unsigned 64-bit number, followed by anything. *)
Theorem C24_roundtrip x rest : is_u64 x -> read_uvarint (write_uvarint x ++ rest) = Some (x, rest).
Proof. apply read_write_uvarint. Qed.

(** The zig-zag map is a bijection between signed and unsigned 64-bit numbers which keeps numbers
    of small magnitude small. *)
Theorem C24_zigzag x u :
  (is_i64 x -> is_u64 (zigzag x) /\ unzigzag (zigzag x) = x /\ zigzag x / 2 <= Z.abs x) /\
  (is_u64 u -> is_i64 (unzigzag u) /\ zigzag (unzigzag u) = u).
Proof.
  split; intros H.
  - split; [now apply zigzag_range|]. split; [now apply unzigzag_zigzag|]. rewrite zigzag_val by done. destruct (Z.leb_spec 0 x).
    + rewrite Z.mul_comm, Z.div_mul by lia. lia.
    + assert ((-2 * x - 1) / 2 < - x) by (apply Z.div_lt_upper_bound; lia). lia.
  - split; [now apply unzigzag_range|now apply zigzag_unzigzag].
Qed.
Theorem C24_signed x rest : is_i64 x -> exists u, read_uvarint (write_uvarint (zigzag x) ++ rest) = Some (u, rest) /\ unzigzag u = x.
Proof. intros H. exists (zigzag x). split; [now apply read_write_uvarint, zigzag_range|now apply unzigzag_zigzag]. Qed.

(** The encoding is one to ten bytes, of exactly as many groups of seven bits as the number needs. *)
Lemma steps_length n x : 0 <= x -> x < 2 ^ (7 * Z.of_nat n) -> (0 < n)%nat ->
  (1 <= length (uvarint_steps n x) <= n)%nat /\ x < 2 ^ (7 * Z.of_nat (length (uvarint_steps n x))) /\
  ((1 < length (uvarint_steps n x))%nat -> 2 ^ (7 * (Z.of_nat (length (uvarint_steps n x)) - 1)) <= x) /\ Forall (fun b => 0 <= b < 256) (uvarint_steps n x).
Proof.
  revert x. induction n as [|n IH]; intros x H0 Hx Hn; [lia|]. cbn [uvarint_steps]. destruct (Z.leb_spec 128 x) as [H|H].
  - rewrite Z.shiftr_div_pow2 by lia. change (2 ^ 7) with 128. destruct n as [|n].
    { change (2 ^ (7 * Z.of_nat 1)) with 128 in Hx. lia. }
    destruct (IH (x / 128)) as (A & B & C & D).
    + apply Z.div_pos; lia.
    + apply Z.div_lt_upper_bound; [lia|]. change 128 with (2 ^ 7). rewrite <- Z.pow_add_r by lia. replace (7 + 7 * Z.of_nat (S n)) with (7 * Z.of_nat (S (S n))) by lia. done.
    + lia.
    + set (l := uvarint_steps (S n) (x / 128)) in *. cbn [length]. split; [lia|]. pose proof (Z.div_mod x 128 ltac:(lia)). pose proof (Z.mod_pos_bound x 128 ltac:(lia)).
      split; [|split].
      * replace (7 * Z.of_nat (S (length l))) with (7 + 7 * Z.of_nat (length l)) by lia. rewrite Z.pow_add_r by lia. change (2 ^ 7) with 128. lia.
      * intros _. replace (7 * (Z.of_nat (S (length l)) - 1)) with (7 * Z.of_nat (length l)) by lia.
        destruct (Nat.eq_dec (length l) 1%nat) as [->|N]; [exact H|]. assert (C' : 2 ^ (7 * (Z.of_nat (length l) - 1)) <= x / 128) by (apply C; lia).
        replace (7 * Z.of_nat (length l)) with (7 + 7 * (Z.of_nat (length l) - 1)) by lia. rewrite Z.pow_add_r by lia. change (2 ^ 7) with 128. lia.
      * constructor; [|done]. assert (0 <= x mod 256 < 2 ^ 8) by (apply Z.mod_pos_bound; lia). split; [apply Z.lor_nonneg; lia|].
        destruct (Z.eq_dec (Z.lor (x mod 256) 128) 0) as [->|Nz]; [lia|]. assert (0 <= Z.lor (x mod 256) 128) by (apply Z.lor_nonneg; lia).
        change 256 with (2 ^ 8) at 2. apply Z.log2_lt_pow2; [lia|]. rewrite Z.log2_lor by lia. apply Z.max_lub_lt; [|cbn; lia].
        destruct (Z.eq_dec (x mod 256) 0) as [->|]; [cbn; lia|]. apply Z.log2_lt_pow2; lia.
  - cbn [length]. split; [lia|]. split; [exact H|]. split; [lia|]. constructor; [|constructor]. apply Z.mod_pos_bound. lia.
Qed.
Theorem C24_size x : is_u64 x -> let k := length (write_uvarint x) in
  (1 <= k <= 10)%nat /\ x < 2 ^ (7 * Z.of_nat k) /\ ((1 < k)%nat -> 2 ^ (7 * (Z.of_nat k - 1)) <= x) /\ Forall (fun b => 0 <= b < 256) (write_uvarint x).
Proof.
  intros [H0 H1] k. subst k. unfold write_uvarint. destruct (steps_length 10 x) as (A & B & C & D); [done| |lia|].
  - change (7 * Z.of_nat 10) with 70. assert (two64 < 2 ^ 70) by reflexivity. apply (Z.lt_trans _ _ _ H1 H).
  - split; [done|]. split; [done|]. split; [|done]. intros H. now apply C.
Qed.

(** Decoding any bytes: at most ten are read, what follows is never looked at, and the result is
    an unsigned 64-bit number. *)
Theorem C24_self_delimiting bs x rest : read_uvarint bs = Some (x, rest) ->
  is_u64 x /\ exists e, bs = e ++ rest /\ (1 <= length e <= 10)%nat /\ forall rest', read_uvarint (e ++ rest') = Some (x, rest').
Proof. intros H. split; [now apply uvarint_range in H|now apply uvarint_consumes]. Qed.

(** Truncated input is refused. *)
Theorem C24_truncated x n : is_u64 x -> (n < length (write_uvarint x))%nat -> read_uvarint (take n (write_uvarint x)) = None.
Proof.
  intros Hx Hn. destruct (read_uvarint (take n (write_uvarint x))) as [[y r]|] eqn:E; [|done]. exfalso.
  pose proof (uvarint_app _ (drop n (write_uvarint x)) _ _ E) as H. rewrite take_drop in H.
  pose proof (read_write_uvarint x [] Hx) as R. rewrite app_nil_r in R. rewrite H in R. injection R as _ R. apply (f_equal length) in R.
  rewrite app_length, drop_length in R. cbn [length] in R. lia.
Qed.
(** No encoding is the start of another. *)
Theorem C24_prefix_free x y rest : is_u64 x -> is_u64 y -> write_uvarint x = write_uvarint y ++ rest -> x = y.
Proof.
  intros Hx Hy H. pose proof (read_write_uvarint x [] Hx) as R. rewrite app_nil_r, H, read_write_uvarint in R by done. now injection R as -> _.
Qed.

(** The documentation of [read_uvarint] says [None] is returned for a value that does not fit 64
    bits, but the surplus bits of the tenth byte are dropped: a ten-byte encoding of a number of
    70 bits is accepted and decodes to a different number. *)
Theorem C24_overflow_refuted : exists bs, Forall (fun b => 0 <= b < 256) bs /\
  ~ is_u64 (fold_right (fun b n => Z.land b 127 + 128 * n) 0 bs) /\ read_uvarint bs = Some (5, []) /\ bs <> write_uvarint 5.
Proof.
  exists [133; 128; 128; 128; 128; 128; 128; 128; 128; 2]. split; [repeat constructor; lia|]. split; [|split].
  - intros [_ H]. revert H. vm_compute. discriminate.
  - vm_compute. reflexivity.
  - vm_compute. discriminate.
Qed.

Example C24_example : write_uvarint 300 = [172; 2] /\ is_u64 300 /\ zigzag (-3) = 5 /\ unzigzag 5 = -3 /\
  write_uvarint (2 ^ 64 - 1) = [255; 255; 255; 255; 255; 255; 255; 255; 255; 1] /\ read_uvarint [172; 2; 9] = Some (300, [9]) /\ read_uvarint [172] = None.
Proof. repeat split; try (vm_compute; reflexivity); vm_compute; discriminate. Qed.

(** ** C25: values *)

(** Every well-typed value, whatever follows. [typed] requires what every Rust value of the type
    satisfies: 64-bit numbers, valid characters, lengths below [2^64], enum values of a declared
    constructor with fields of the declared types. *)
Theorem C25_roundtrip env v ty rest : typed env v ty -> wire_decode env ty (wire_encode v ++ rest) = Some (v, rest).
Proof. apply roundtrip. Qed.
(** Two values of a type with the same encoding are equal, even when one encoding is only the
    start of the other. *)
Theorem C25_injective env v w ty rest : typed env v ty -> typed env w ty -> wire_encode v = wire_encode w ++ rest -> v = w /\ rest = [].
Proof.
  intros Hv Hw H. pose proof (roundtrip env v ty [] Hv) as R. rewrite app_nil_r, H, roundtrip in R by done. now injection R as -> ->.
Qed.
(** A strict prefix of an encoding is refused. *)
Theorem C25_truncated env v ty n : typed env v ty -> (n < length (wire_encode v))%nat -> wire_decode env ty (take n (wire_encode v)) = None.
Proof.
  intros Hv Hn. destruct (wire_decode env ty (take n (wire_encode v))) as [[y r]|] eqn:E; [|done]. exfalso.
  pose proof (wire_decode_app env _ _ (drop n (wire_encode v)) _ _ E) as H. rewrite take_drop in H.
  pose proof (roundtrip env v ty [] Hv) as R. rewrite app_nil_r in R. rewrite H in R. injection R as _ R. apply (f_equal length) in R.
  rewrite app_length, drop_length in R. cbn [length] in R. lia.
Qed.
(** Decoding any bytes does not depend on the step bound of the model. *)
Theorem C25_decode_total env ty bs n : (2 * length bs + 1 <= n)%nat -> dec n env ty bs = wire_decode env ty bs.
Proof. apply wire_decode_steps. Qed.
(** A successful decoding consumes at least a byte and does not look at what follows the value. *)
Theorem C25_decode_local env ty bs v rest : wire_decode env ty bs = Some (v, rest) ->
  exists e, bs = e ++ rest /\ (1 <= length e)%nat /\ forall rest', wire_decode env ty (e ++ rest') = Some (v, rest').
Proof.
  intros H. pose proof (proj1 (dec_shorter_all env _) _ _ _ _ H) as L. destruct (proj1 (dec_local_all env _) _ _ _ _ H) as (e & E & R). exists e. split; [done|].
  split; [apply (f_equal length) in E; rewrite app_length in E; lia|]. intros rest'.
  rewrite <- (wire_decode_steps env ty _ (Nat.max (2 * length bs + 2) (2 * length (e ++ rest') + 1))) by lia.
  apply (proj1 (dec_mono_all env _ _ (Nat.le_max_l _ _))). apply R.
Qed.
(** What any bytes decode to is a value of the type asked for. *)
Theorem C25_decode_typed env ty bs v rest : env_ok env -> Forall (fun b => 0 <= b < 256) bs -> Z.of_nat (length bs) < two64 ->
  wire_decode env ty bs = Some (v, rest) -> typed env v ty.
Proof. intros He Hb Hl H. apply (proj1 (dec_typed_all env He _) _ _ _ _ Hb Hl H). Qed.

(** A generated decoder reads the type name and the number of arguments but checks neither: the
    encoding of one enum's value is accepted as a value of another enum that has a constructor of
    the same name, and the number of arguments may be anything. *)
Ltac is_ascii_text := repeat (apply Forall_cons_2; [left; lia|]); apply Forall_nil; exact I.
Definition shape : list Z := [83].
Definition colour : list Z := [67].
Definition none_ : list Z := [78].
Theorem C25_type_name_refuted : exists env v t bs,
  typed env v (WEnum colour) /\ wire_decode env (WEnum shape) (wire_encode v) = Some (t, []) /\ t <> v /\ typed env t (WEnum shape) /\
  bs = T_INDUCTIVE :: write_str shape ++ write_str none_ ++ write_uvarint 7 /\ wire_decode env (WEnum shape) bs = Some (t, []).
Proof.
  exists [(shape, [(none_, [])]); (colour, [(none_, [])])], (VEnum colour none_ []), (VEnum shape none_ []). eexists.
  assert (is_text colour) by is_ascii_text.
  assert (is_text shape) by is_ascii_text.
  assert (is_text none_) by is_ascii_text.
  split; [|split; [vm_compute; reflexivity|split; [discriminate|split; [|split; [reflexivity|vm_compute; reflexivity]]]]].
  - cbn [typed]. do 2 (split; [done|]). do 4 (split; [done|]). exists [(none_, [])], []. done.
  - cbn [typed]. do 2 (split; [done|]). do 4 (split; [done|]). exists [(none_, [])], []. done.
Qed.

(** A list of trees, an enum with two fields of which one is the enum itself. *)
Definition tree : list Z := [84].
Definition leaf : list Z := [76].
Definition node : list Z := [78; 233].
Definition tree_env : wenv := [(tree, [(leaf, []); (node, [WEnum tree; WSeq WInt])])].
Definition a_tree : wval := VEnum tree node [VEnum tree leaf []; VSeq [VInt (-1); VInt 300]].
Example C25_example : env_ok tree_env /\ typed tree_env (VSeq [a_tree; a_tree]) (WSeq (WEnum tree)) /\
  wire_encode a_tree = [18; 1; 84; 3; 78; 195; 169; 2; 18; 1; 84; 1; 76; 0; 13; 2; 3; 1; 3; 216; 4] /\
  wire_decode tree_env (WEnum tree) (wire_encode a_tree) = Some (a_tree, []).
Proof.
  assert (Ht : is_text tree) by is_ascii_text.
  assert (Hl : is_text leaf) by is_ascii_text.
  assert (Hn : is_text node) by is_ascii_text.
  assert (T : typed tree_env a_tree (WEnum tree)).
  { cbn [typed a_tree]. do 6 (split; [done|]). exists [(leaf, []); (node, [WEnum tree; WSeq WInt])], [WEnum tree; WSeq WInt].
    split; [reflexivity|]. split; [reflexivity|]. split; [|split; [|done]].
    - do 6 (split; [done|]). exists [(leaf, []); (node, [WEnum tree; WSeq WInt])], []. done.
    - split; [done|]. split; [unfold is_i64; lia|]. split; [unfold is_i64; lia|done]. }
  split; [|split; [|split; vm_compute; reflexivity]].
  - intros name vars c tys. unfold tree_env. cbn [assoc]. case_bool_decide as E; [subst|discriminate]. intros [= <-]. cbn [assoc].
    case_bool_decide as E1; [intros [= <-]; subst; done|]. case_bool_decide as E2; [intros [= <-]; subst; done|discriminate].
  - cbn [typed]. split; [done|]. split; [exact T|]. split; [exact T|done].
Qed.
