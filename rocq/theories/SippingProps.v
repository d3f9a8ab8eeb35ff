(** C46: chunked transfer. *)
From Coq Require Import ZArith List Lia.
From stdpp Require Import list.
From Verif Require Import MachInt SippingModel.
Open Scope Z_scope.

(** ** Specification *)

(** Cutting a file into pieces of [c] bytes, the last one possibly shorter and never empty. *)
Inductive cut {A} (c : Z) : list A -> list (list A) -> Prop :=
| cut_empty : cut c [] []
| cut_last l : l <> [] -> Z.of_nat (length l) <= c -> cut c l [l]
| cut_more a l ps : Z.of_nat (length a) = c -> l <> [] -> cut c l ps -> cut c (a ++ l) (a :: ps).

(** The chunks a receiver gets by asking for the indices [0, 1, ...] below the count. *)
Definition received {A} (z : list A) (c : Z) (chunks : list (list A)) : Prop :=
  let s := {| sp_zone := z; sp_chunk_size := c |} in
  chunk_count s = Some (Z.of_nat (length chunks)) /\
  forall i, (i < length chunks)%nat -> get_chunk s (Z.of_nat i) = chunks !! i.

(** ** Proof *)
Section lemmas.
  Context {A : Type}.
  Implicit Types z l : list A.

  Lemma count_nonneg c n : 0 < c -> 0 <= n -> 0 <= (n + c - 1) / c.
  Proof. intros. apply Z.div_pos; lia. Qed.

  Lemma get_ok z c i : 0 < c -> Z.of_nat (length z) + c < two64 -> 0 <= i -> i * c < two64 ->
    get_chunk {| sp_zone := z; sp_chunk_size := c |} i = Some (take (Z.to_nat c) (drop (Z.to_nat (i * c)) z)).
  Proof.
    intros Hc Hf Hi Hs. unfold get_chunk, zlen. cbn [sp_zone sp_chunk_size]. rewrite (wrap64_small (i * c)) by (unfold is_u64; lia).
    destruct (Z.leb_spec (Z.of_nat (length z)) (i * c)).
    - rewrite drop_ge by lia. now rewrite take_nil.
    - rewrite wrap64_small by (unfold is_u64; lia). unfold slice, zlen.
      rewrite (proj2 (Z.leb_le _ _)) by lia. rewrite (proj2 (Z.leb_le _ _)) by lia. cbn [andb]. f_equal.
      destruct (Z.le_gt_cases (i * c + c) (Z.of_nat (length z))).
      + rewrite Z.min_l by lia. f_equal. lia.
      + rewrite Z.min_r by lia. rewrite !take_ge; [done| |]; rewrite drop_length; lia.
  Qed.

  Fixpoint pieces (n : nat) (c : Z) (l : list A) : list (list A) :=
    match n with
    | O => []
    | S n => take (Z.to_nat c) l :: pieces n c (drop (Z.to_nat c) l)
    end.
  Lemma pieces_length n c l : length (pieces n c l) = n.
  Proof. revert l. induction n; intros l; cbn; auto. Qed.
  Lemma pieces_lookup n c l i : 0 < c -> (i < n)%nat -> pieces n c l !! i = Some (take (Z.to_nat c) (drop (Z.to_nat (Z.of_nat i * c)) l)).
  Proof.
    intros Hc. revert l i. induction n as [|n IH]; intros l i Hi; [lia|]. destruct i as [|i]; cbn [pieces].
    - cbn. done.
    - change ((take (Z.to_nat c) l :: pieces n c (drop (Z.to_nat c) l)) !! S i) with (pieces n c (drop (Z.to_nat c) l) !! i). rewrite IH by lia. rewrite drop_drop.
      replace (Z.to_nat (Z.of_nat (S i) * c)) with (Z.to_nat c + Z.to_nat (Z.of_nat i * c))%nat; [done|]. rewrite <- Z2Nat.inj_add by nia. f_equal. rewrite Nat2Z.inj_succ. nia.
  Qed.
  Lemma pieces_cut n c l : 0 < c -> l <> [] -> (Z.of_nat n - 1) * c < Z.of_nat (length l) <= Z.of_nat n * c -> cut c l (pieces n c l).
  Proof.
    intros Hc. revert l. induction n as [|n IH]; intros l Hl Hn; [destruct l; [done|cbn in Hn; lia]|]. cbn [pieces].
    destruct (Z.le_gt_cases (Z.of_nat (length l)) c).
    - assert (n = 0%nat) as -> by nia. cbn. rewrite take_ge by lia. constructor; [done|lia].
    - rewrite <- (take_drop (Z.to_nat c) l) at 1. constructor.
      + rewrite take_length. lia.
      + intros E. apply (f_equal length) in E. rewrite drop_length in E. cbn in E. lia.
      + apply IH.
        * intros E. apply (f_equal length) in E. rewrite drop_length in E. cbn in E. lia.
        * rewrite drop_length. nia.
  Qed.
  Lemma cut_concat c l ps : cut c l ps -> concat ps = l.
  Proof. induction 1; cbn; [done|apply app_nil_r|congruence]. Qed.
End lemmas.

(** ** C46 *)

(** For every file and positive chunk size (together below the address space) the chunks with
    the reported indices cut the file: each has the full size except the last, none is empty,
    and in order they concatenate to the file. *)
Theorem C46_chunks {A} (z : list A) c : 0 < c -> Z.of_nat (length z) + c < two64 ->
  exists chunks, received z c chunks /\ cut c z chunks /\ concat chunks = z.
Proof.
  intros Hc Hf. destruct (decide (z = [])) as [->|Hz].
  { exists []. split; [|split; [constructor|done]]. split; [done|]. cbn. lia. }
  assert (Hl : 0 < Z.of_nat (length z)) by (destruct z; [done|cbn; lia]).
  set (n := (Z.of_nat (length z) + c - 1) / c).
  assert (Hn : (n - 1) * c < Z.of_nat (length z) <= n * c).
  { pose proof (Z.div_mod (Z.of_nat (length z) + c - 1) c ltac:(lia)). pose proof (Z.mod_pos_bound (Z.of_nat (length z) + c - 1) c Hc). fold n in H. nia. }
  assert (Hp : 0 <= n) by (apply count_nonneg; lia).
  exists (pieces (Z.to_nat n) c z). assert (C : cut c z (pieces (Z.to_nat n) c z)) by (apply pieces_cut; [done..|rewrite Z2Nat.id; done]).
  split; [|split; [done|now apply (cut_concat c)]]. split.
  - rewrite pieces_length, Z2Nat.id by done. unfold chunk_count, zlen. cbn [sp_zone sp_chunk_size].
    rewrite (proj2 (Z.eqb_neq _ 0)) by lia. rewrite (proj2 (Z.eqb_neq _ 0)) by lia. now rewrite wrap64_small by (unfold is_u64; lia).
  - rewrite pieces_length. intros i Hi. rewrite pieces_lookup by lia. apply get_ok; [done..|lia|]. unfold two64 in *. nia.
Qed.

(** Asking for an index at or past the count gives nothing, as long as [index * chunk_size]
    does not leave 64 bits ... *)
Theorem C46_past_end {A} (z : list A) c i n : 0 < c -> Z.of_nat (length z) + c < two64 -> i * c < two64 ->
  chunk_count {| sp_zone := z; sp_chunk_size := c |} = Some n -> n <= i -> 0 <= i -> get_chunk {| sp_zone := z; sp_chunk_size := c |} i = Some [].
Proof.
  intros Hc Hf Ho Hn Hi Hi0. rewrite get_ok by done. f_equal. rewrite drop_ge; [apply take_nil|].
  unfold chunk_count, zlen in Hn. cbn [sp_zone sp_chunk_size] in Hn. destruct (Z.eqb_spec (Z.of_nat (length z)) 0); [lia|].
  destruct (Z.eqb_spec c 0); [lia|]. rewrite wrap64_small in Hn by (unfold is_u64; lia). injection Hn as <-.
  pose proof (Z.div_mod (Z.of_nat (length z) + c - 1) c ltac:(lia)). pose proof (Z.mod_pos_bound (Z.of_nat (length z) + c - 1) c Hc). nia.
Qed.
(** ... and otherwise the multiplication wraps and an index far past the end returns the first
    bytes of the file (a panic in a debug build). *)
Theorem C46_huge_index_refuted : exists (z : list Z) i, chunk_count {| sp_zone := z; sp_chunk_size := 1048576 |} = Some 1 /\ is_u64 i /\ 1 <= i /\
  get_chunk {| sp_zone := z; sp_chunk_size := 1048576 |} i = Some z /\ z <> [].
Proof. exists [7], (2 ^ 44). split; [reflexivity|]. split; [unfold is_u64, two64; lia|]. split; [lia|]. split; [reflexivity|done]. Qed.

(** The manifest lists one hash per chunk, in order, and the sizes. *)
Theorem C46_manifest {A H} (sha : list A -> H) (z : list A) c : 0 < c -> Z.of_nat (length z) + c < two64 ->
  exists chunks, received z c chunks /\
    make_manifest sha {| sp_zone := z; sp_chunk_size := c |} =
      Some {| mf_total := Z.of_nat (length z); mf_chunk_size := c; mf_count := Z.of_nat (length chunks); mf_hashes := map sha chunks |} /\
    forall i d, chunks !! i = Some d ->
      get_chunk_with_hash sha {| sp_zone := z; sp_chunk_size := c |} (Z.of_nat i) = Some {| ck_index := Z.of_nat i; ck_data := d; ck_hash := sha d |}.
Proof.
  intros Hc Hf. destruct (C46_chunks z c Hc Hf) as (chunks & [R1 R2] & _ & _). exists chunks. split; [done|]. split.
  - unfold make_manifest. rewrite R1. rewrite Nat2Z.id.
    assert (K : forall n k, (k + n = length chunks)%nat -> hashes_from sha {| sp_zone := z; sp_chunk_size := c |} n (Z.of_nat k) = Some (map sha (drop k chunks))).
    { induction n as [|n IH]; intros k E; cbn [hashes_from].
      - rewrite drop_ge by lia. done.
      - unfold hash_chunk. rewrite R2 by lia. destruct (lookup_lt_is_Some_2 chunks k) as [d Hd]; [lia|]. rewrite Hd. cbn [fmap option_fmap option_map].
        replace (Z.of_nat k + 1) with (Z.of_nat (S k)) by lia. rewrite IH by lia. rewrite (drop_S chunks d k Hd); done. }
    change (hashes_from sha {| sp_zone := z; sp_chunk_size := c |} (length chunks) 0) with (hashes_from sha {| sp_zone := z; sp_chunk_size := c |} (length chunks) (Z.of_nat 0)). rewrite K by lia. now rewrite drop_0.
  - intros i d Hd. unfold get_chunk_with_hash, hash_chunk. rewrite R2 by now apply lookup_lt_Some in Hd. now rewrite Hd.
Qed.

Example C46_example : received [1; 2; 3; 4; 5] 2 [[1; 2]; [3; 4]; [5]] /\ cut 2 [1; 2; 3; 4; 5] [[1; 2]; [3; 4]; [5]] /\
  Z.of_nat (length [1; 2; 3; 4; 5]) + 2 < two64.
Proof.
  split; [|split; [|reflexivity]].
  - split; [reflexivity|]. intros i Hi. cbn in Hi. destruct i as [|[|[|i]]]; [reflexivity..|lia].
  - apply (cut_more 2 [1; 2] [3; 4; 5]); [done..|]. apply (cut_more 2 [3; 4] [5]); [done..|]. now constructor.
Qed.

Print Assumptions C46_chunks.
Print Assumptions C46_past_end.
Print Assumptions C46_huge_index_refuted.
Print Assumptions C46_manifest.
