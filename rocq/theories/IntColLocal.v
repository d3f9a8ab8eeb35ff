(** Support for the integer-column properties: the decoder reads a prefix and nothing else,
    writes [i64] values, and how long its output can be. *)
From Coq Require Import ZArith List Lia.
From stdpp Require Import list.
From Verif Require Import MachInt WireModel WireProofs WireProps IntColModel IntColProofs IntColRound IntColRound2 IntColRound3 IntColBound.
Open Scope Z_scope.

(** ** Locality *)
Lemma local_mbind {A B} (f : list Z -> option (A * list Z)) (g : A -> list Z -> option (B * list Z)) :
  local f -> (forall a, local (g a)) -> local (fun bs => mbind (fun p => match p with (a, r) => g a r end) (f bs)).
Proof. intros F G. apply (local_bind f g F G). Qed.
Lemma local_opt {A B} (o : option A) (g : A -> list Z -> option (B * list Z)) :
  (forall a, local (g a)) -> local (fun bs => mbind (fun a => g a bs) o).
Proof. intros G. destruct o as [a|]; [apply G|]. intros bs v r. discriminate. Qed.
Lemma local_if {B} (c : bool) (f g : list Z -> option (B * list Z)) : local f -> local g -> local (fun bs => if c then f bs else g bs).
Proof. destruct c; trivial. Qed.
Lemma local_zz : local read_zz.
Proof. apply local_mbind; [apply local_uvarint|]. intros u. apply local_ret. Qed.
Lemma local_byte : local read_byte.
Proof. intros [|b bs] v r; [discriminate|]. intros [= <- <-]. now exists [b]. Qed.
Lemma local_take n : local (take_bytes n).
Proof.
  intros bs v r. unfold take_bytes. destruct (Z.ltb_spec (len bs) n) as [L|L]; [discriminate|]. intros [= <- <-].
  exists (take (Z.to_nat n) bs). split; [now rewrite take_drop|]. intros r'. unfold len in *.
  destruct (Z.ltb_spec (Z.of_nat (length (take (Z.to_nat n) bs ++ r'))) n) as [G|_].
  { rewrite app_length, take_length in G. lia. }
  assert (E : length (take (Z.to_nat n) bs) = Z.to_nat n) by (rewrite take_length; lia).
  rewrite <- E at 1 3. now rewrite take_app, drop_app.
Qed.
Lemma local_read_n {A} (rd : list Z -> option (A * list Z)) n : local rd -> local (read_n rd n).
Proof.
  intros R. induction n as [|n IH]; cbn [read_n]; [apply local_ret|].
  apply local_mbind; [exact R|]. intros x. apply local_mbind; [exact IH|]. intros xs. apply local_ret.
Qed.
Lemma local_delta n : forall cur, local (delta_read n cur).
Proof.
  induction n as [|n IH]; intros cur; cbn [delta_read]; [apply local_ret|].
  apply local_mbind; [apply local_zz|]. intros d. apply local_mbind; [apply IH|]. intros xs. apply local_ret.
Qed.
Lemma local_dod n : forall a b, local (dod_read n a b).
Proof.
  induction n as [|n IH]; intros a b; cbn [dod_read]; [apply local_ret|].
  apply local_mbind; [apply local_zz|]. intros d. apply local_mbind; [apply IH|]. intros xs. apply local_ret.
Qed.
Lemma local_sparse n : forall i v, local (sparse_read n i v).
Proof.
  induction n as [|n IH]; intros i v; cbn [sparse_read]; [apply local_ret|].
  apply local_mbind; [apply local_uvarint|]. intros d. apply local_if; [apply local_fail|].
  apply local_mbind; [apply local_zz|]. intros x. apply local_if; [apply IH|apply local_fail].
Qed.
Lemma local_rle n : forall v, local (rle_read n v).
Proof.
  induction n as [|n IH]; intros v; cbn [rle_read]; [apply local_ret|].
  apply local_mbind; [apply local_zz|]. intros x. apply local_mbind; [apply local_uvarint|]. intros k.
  apply local_if; [apply local_fail|apply IH].
Qed.
Lemma local_bigint : local read_bigint.
Proof.
  assert (G : forall s, local (fun bs => '(n, bs) ← read_uvarint bs; '(bytes, bs) ← take_bytes n bs;
      Some (if s =? 0 then from_le bytes else - from_le bytes, bs))).
  { intros s. apply local_mbind; [apply local_uvarint|]. intros n. apply local_mbind; [apply local_take|]. intros b. apply local_ret. }
  intros [|s bs] v r H; [discriminate|]. cbn [read_bigint] in H. destruct (G s _ _ _ H) as (c & -> & R). exists (s :: c). split; [reflexivity|]. exact R.
Qed.
(** The generator reader, as a reader of a pair. *)
Definition gen_reader (levels budget : nat) (bs : list Z) : option ((gen * nat) * list Z) :=
  '(e, bs, b) ← deserialize_gen levels bs budget; Some ((e, b), bs).
Lemma gen_reader_spec levels budget bs e bs' b : deserialize_gen levels bs budget = Some (e, bs', b) <-> gen_reader levels budget bs = Some ((e, b), bs').
Proof.
  unfold gen_reader. destruct (deserialize_gen levels bs budget) as [[[e0 r0] b0]|]; cbn [mbind option_bind]; split; intros H; try discriminate; congruence.
Qed.
Lemma deserialize_node levels budget tag bs : deserialize_gen (S levels) (tag :: bs) (S budget) =
  if tag =? 0 then Some (GIndex, bs, budget)
  else if tag =? 1 then '(u, bs) ← read_uvarint bs; Some (GConst (unzigzag u), bs, budget)
  else match gop_of tag with
       | Some op => '(a, bs, budget) ← deserialize_gen levels bs budget; '(b, bs, budget) ← deserialize_gen levels bs budget; Some (GBin op a b, bs, budget)
       | None => if tag =? 7 then
                   match bs with
                   | [] => None
                   | t :: bs => op ← gcmp_of t;
                       '(l, bs, budget) ← deserialize_gen levels bs budget; '(r, bs, budget) ← deserialize_gen levels bs budget;
                       '(t, bs, budget) ← deserialize_gen levels bs budget; '(f, bs, budget) ← deserialize_gen levels bs budget;
                       Some (GSelect op l r t f, bs, budget)
                   end
                 else None
       end.
Proof. reflexivity. Qed.

(** Everything a successful read of a generator says. *)
Lemma deserialize_facts levels : forall budget bs e r b, deserialize_gen levels bs budget = Some (e, r, b) ->
  exists c, bs = c ++ r /\ (forall r', deserialize_gen levels (c ++ r') budget = Some (e, r', b)) /\
  (gen_height e <= levels)%nat /\ (gen_size e + b = budget)%nat.
Proof.
  induction levels as [|levels IH]; intros budget bs e r b H; [discriminate|].
  destruct budget as [|budget]; [discriminate|]. destruct bs as [|tag bs]; [discriminate|].
  rewrite deserialize_node in H.
  destruct (tag =? 0) eqn:T0.
  { injection H as <- <- <-. exists [tag]. split; [reflexivity|]. split; [intros r'; cbn [app]; rewrite deserialize_node, T0; reflexivity|]. cbn [gen_height gen_size]. lia. }
  destruct (tag =? 1) eqn:T1.
  { destruct (read_uvarint bs) as [[u bs1]|] eqn:U; [|discriminate]. cbn [mbind option_bind] in H. injection H as <- <- <-.
    destruct (local_uvarint _ _ _ U) as (c & -> & R). exists (tag :: c). split; [reflexivity|].
    split; [|cbn [gen_height gen_size]; lia].
    intros r'. cbn [app]. rewrite deserialize_node, T0, T1, R. reflexivity. }
  destruct (gop_of tag) as [op|] eqn:OP.
  { destruct (deserialize_gen levels bs budget) as [[[a bs1] b1]|] eqn:A; [|discriminate]. cbn [mbind option_bind] in H.
    destruct (deserialize_gen levels bs1 b1) as [[[a2 bs2] b2]|] eqn:B; [|discriminate]. cbn [mbind option_bind] in H. injection H as <- <- <-.
    destruct (IH _ _ _ _ _ A) as (c1 & -> & R1 & H1 & S1).
    destruct (IH _ _ _ _ _ B) as (c2 & -> & R2 & H2 & S2).
    exists (tag :: c1 ++ c2). split; [now rewrite <- app_comm_cons, app_assoc|].
    split; [|cbn [gen_height gen_size]; lia].
    intros r'. rewrite <- app_comm_cons, <- app_assoc, deserialize_node, T0, T1, OP, R1. cbn [mbind option_bind]. rewrite R2. reflexivity. }
  destruct (tag =? 7) eqn:T7; [|discriminate]. destruct bs as [|t bs]; [discriminate|].
  destruct (gcmp_of t) as [op|] eqn:CMP; [|discriminate]. cbn [mbind option_bind] in H.
  destruct (deserialize_gen levels bs budget) as [[[a1 bs1] b1]|] eqn:A; [|discriminate]. cbn [mbind option_bind] in H.
  destruct (deserialize_gen levels bs1 b1) as [[[a2 bs2] b2]|] eqn:B; [|discriminate]. cbn [mbind option_bind] in H.
  destruct (deserialize_gen levels bs2 b2) as [[[a3 bs3] b3]|] eqn:C; [|discriminate]. cbn [mbind option_bind] in H.
  destruct (deserialize_gen levels bs3 b3) as [[[a4 bs4] b4]|] eqn:D; [|discriminate]. cbn [mbind option_bind] in H. injection H as <- <- <-.
  destruct (IH _ _ _ _ _ A) as (c1 & -> & R1 & H1 & S1).
  destruct (IH _ _ _ _ _ B) as (c2 & -> & R2 & H2 & S2).
  destruct (IH _ _ _ _ _ C) as (c3 & -> & R3 & H3 & S3).
  destruct (IH _ _ _ _ _ D) as (c4 & -> & R4 & H4 & S4).
  exists (tag :: t :: c1 ++ c2 ++ c3 ++ c4). split; [rewrite <- !app_comm_cons, <- !app_assoc; reflexivity|].
  split; [|cbn [gen_height gen_size]; lia].
  intros r'. rewrite <- !app_comm_cons, <- !app_assoc, deserialize_node, T0, T1, OP, T7, CMP. cbn [mbind option_bind].
  rewrite R1. cbn [mbind option_bind]. rewrite R2. cbn [mbind option_bind]. rewrite R3. cbn [mbind option_bind]. rewrite R4. reflexivity.
Qed.
Lemma local_gen {B} levels budget (g : gen -> list Z -> option (B * list Z)) : (forall e, local (g e)) ->
  local (fun bs => mbind (fun p => match p with (q, _) => match q with (e, r) => g e r end end) (deserialize_gen levels bs budget)).
Proof.
  intros G bs v r H. destruct (deserialize_gen levels bs budget) as [[[e bs1] b1]|] eqn:D; [|discriminate]. cbn [mbind option_bind] in H.
  destruct (deserialize_facts _ _ _ _ _ _ D) as (c & -> & R & _). destruct (G e _ _ _ H) as (c2 & -> & R2).
  exists (c ++ c2). split; [now rewrite app_assoc|]. intros r'. rewrite <- app_assoc, R. cbn [mbind option_bind]. apply R2.
Qed.

Lemma local_decode_body levels : forall tag max, local (decode_body levels tag max).
Proof.
  assert (STEP : forall lv tag max, (forall l', lv = S l' -> forall t m, local (decode_body l' t m)) -> local (decode_body lv tag max)).
  2:{ induction levels as [|levels IH]; intros tag max; apply STEP; [discriminate|]. intros l' [= <-]. exact IH. }
  intros lv tag max REC.
  assert (EQ : forall bs, decode_body lv tag max bs = decode_body lv tag max bs) by reflexivity.
  destruct lv as [|lv]; cbn [decode_body]; cbv zeta.
  all: repeat match goal with
    | |- local (fun bs => if ?c then _ else _) => apply local_if
    | |- local (fun _ => None) => apply local_fail
    | |- local (fun bs => Some (_, bs)) => apply local_ret
    | |- local (fun bs => mbind _ (deserialize_gen _ _ _)) => apply local_gen; intros ?
    | |- local (fun bs => mbind _ (read_uvarint bs)) => apply local_mbind; [apply local_uvarint|intros ?]
    | |- local (fun bs => mbind _ (read_zz bs)) => apply local_mbind; [apply local_zz|intros ?]
    | |- local (fun bs => mbind _ (read_byte bs)) => apply local_mbind; [apply local_byte|intros ?]
    | |- local (fun bs => mbind _ (take_bytes _ bs)) => apply local_mbind; [apply local_take|intros ?]
    | |- local (fun bs => mbind _ (read_bigint bs)) => apply local_mbind; [apply local_bigint|intros ?]
    | |- local (fun bs => mbind _ (read_n _ _ bs)) => apply local_mbind; [apply local_read_n; first [apply local_uvarint|apply local_zz]|intros ?]
    | |- local (fun bs => mbind _ (delta_read _ _ bs)) => apply local_mbind; [apply local_delta|intros ?]
    | |- local (fun bs => mbind _ (dod_read _ _ _ bs)) => apply local_mbind; [apply local_dod|intros ?]
    | |- local (fun bs => mbind _ (decode_body _ _ _ bs)) => apply local_mbind; [apply (REC _ eq_refl)|intros ?]
    | |- local (fun bs => mbind _ _) => apply local_opt; intros ?
    | |- local (fun bs => sparse_read _ _ _ bs) => apply local_sparse
    | |- local (sparse_read _ _ _) => apply local_sparse
    | |- local (fun bs => rle_read _ _ bs) => apply local_rle
    | |- local (rle_read _ _) => apply local_rle
    | |- local (fun bs => take_bytes _ bs) => apply local_take
    | |- local (take_bytes _) => apply local_take
    end.
Qed.
