(** Linear algebra over the byte field: elimination inverts, Vandermonde rows are independent. *)
From Coq Require Import NArith List Lia Strings.Byte Ring.
From stdpp Require Import list.
From Verif Require Import FecModel FecField.
Open Scope nat_scope.
Opaque gf gf_exp gf_log gf_mul gf_div xor u8.

Definition delta (i j : nat) : byte := if i =? j then x01 else x00.
Definition dot (w : nat) (r : row) (z : nat -> byte) : byte := xsum w (fun j => gf_mul (nth j r x00) (z j)).
Definition wf (k w : nat) (a : list row) : Prop := length a = k /\ forall i, i < k -> length (nth i a []) = w.
Definition sols (k w : nat) (a : list row) (z : nat -> byte) : Prop := forall i, i < k -> dot w (nth i a []) z = x00.

(** ** Lists *)
Lemma nth_insert {A} (l : list A) i j x d : nth j (<[i := x]> l) d = if (i =? j) && (j <? length l) then x else nth j l d.
Proof.
  rewrite !nth_lookup. destruct (Nat.eqb_spec i j) as [<-|N]; cbn [andb].
  - destruct (Nat.ltb_spec i (length l)); [now rewrite list_lookup_insert by done|]. rewrite list_insert_ge by lia. done.
  - now rewrite list_lookup_insert_ne.
Qed.
Lemma nth_imap {A B} (f : nat -> A -> B) l i d d' : i < length l -> nth i (imap f l) d = f i (nth i l d').
Proof. intros H. rewrite !nth_lookup, list_lookup_imap. destruct (lookup_lt_is_Some_2 l i H) as [x ->]. done. Qed.
Lemma nth_map_in {A B} (f : A -> B) l i d d' : i < length l -> nth i (map f l) d = f (nth i l d').
Proof. intros H. rewrite (nth_indep _ d (f d')) by (now rewrite map_length). apply map_nth. Qed.
Lemma nth_zip_with {A B C} (f : A -> B -> C) l m i d da db : i < length l -> i < length m -> nth i (zip_with f l m) d = f (nth i l da) (nth i m db).
Proof. intros H G. rewrite !nth_lookup, lookup_zip_with. destruct (lookup_lt_is_Some_2 l i H) as [x ->], (lookup_lt_is_Some_2 m i G) as [y ->]. done. Qed.
Lemma nth_seq_map {B} (f : nat -> B) s n i d : i < n -> nth i (map f (seq s n)) d = f (s + i).
Proof. intros H. rewrite (nth_map_in f _ i d 0) by (now rewrite seq_length). now rewrite seq_nth. Qed.

(** ** One column *)
Lemma find_pivot_spec n a p col : let q := find_pivot n a p col in p <= q <= p + n /\ (forall i, p <= i < q -> at2 a i col = x00) /\ (q < p + n -> at2 a q col <> x00).
Proof.
  revert p. induction n as [|n IH]; intros p; cbn; [split; [lia|]; split; [intros; lia|lia]|]. destruct (is0_spec (at2 a p col)) as [E|N].
  - destruct (IH (S p)) as (B & Z0 & P). split; [lia|]. split; [|intros; apply P; lia]. intros i Hi. destruct (Nat.eq_dec i p) as [->|]; [done|]. apply Z0. lia.
  - split; [lia|]. split; [intros; lia|done].
Qed.
Lemma swap_wf k w a i j : wf k w a -> i < k -> j < k -> wf k w (swap a i j).
Proof.
  intros [L W] Hi Hj. unfold swap. split; [now rewrite !insert_length|]. intros x Hx. rewrite !nth_insert, insert_length, L.
  destruct ((i =? x) && (x <? k)); [now apply W|]. destruct ((j =? x) && (x <? k)); now apply W.
Qed.
Lemma nth_swap a i j x : i < length a -> j < length a -> nth x (swap a i j) [] = if x =? i then nth j a [] else if x =? j then nth i a [] else nth x a [].
Proof.
  intros Hi Hj. unfold swap. rewrite !nth_insert, insert_length. rewrite (Nat.eqb_sym i x), (Nat.eqb_sym j x). destruct (Nat.eqb_spec x i) as [->|]; cbn [andb]; [now rewrite (proj2 (Nat.ltb_lt _ _) Hi)|]. destruct (Nat.eqb_spec x j) as [->|]; cbn [andb]; [now rewrite (proj2 (Nat.ltb_lt _ _) Hj)|done].
Qed.
Lemma swap_sols k w a i j z : length a = k -> i < k -> j < k -> sols k w a z <-> sols k w (swap a i j) z.
Proof.
  intros L Hi Hj. unfold sols. split; intros H x Hx.
  - rewrite nth_swap by lia. destruct (x =? i); [now apply H|]. destruct (x =? j); now apply H.
  - destruct (Nat.eq_dec x i) as [->|Ni]; [|destruct (Nat.eq_dec x j) as [->|Nj]].
    + specialize (H j Hj). rewrite nth_swap in H by lia. destruct (Nat.eqb_spec j i) as [->|]; [done|]. now rewrite Nat.eqb_refl in H.
    + specialize (H i Hi). rewrite nth_swap in H by lia. now rewrite Nat.eqb_refl in H.
    + specialize (H x Hx). rewrite nth_swap in H by lia. apply Nat.eqb_neq in Ni, Nj. now rewrite Ni, Nj in H.
Qed.
Definition units (k c : nat) (a : list row) : Prop := forall i j, i < k -> j < c -> at2 a i j = delta i j.
Lemma eliminate_some k w a col a' : wf k w a -> col < k -> k <= w -> units k col a -> eliminate k a col = Some a' ->
  wf k w a' /\ units k (S col) a' /\ forall z, sols k w a z <-> sols k w a' z.
Proof.
  intros W Hc Hw U. unfold eliminate. pose proof (find_pivot_spec (k - col) a col col) as P. cbn zeta in P. set (piv := find_pivot (k - col) a col col) in *. destruct P as (B & _ & NZ).
  destruct (Nat.eqb_spec piv k) as [|Np]; [done|]. assert (Hp : piv < k) by lia. specialize (NZ ltac:(lia)). intros [= <-].
  set (a1 := swap a col piv). assert (W1 : wf k w a1) by now apply swap_wf. assert (S1 : forall z, sols k w a z <-> sols k w a1 z) by (intros z; destruct W; now apply swap_sols).
  assert (La : length a = k) by apply W.
  assert (P1 : at2 a1 col col <> x00) by (unfold at2, a1; rewrite nth_swap by lia; now rewrite Nat.eqb_refl).
  assert (U1 : units k col a1).
  { intros i j Hi Hj. unfold at2, a1. rewrite nth_swap by lia. destruct (Nat.eqb_spec i col) as [->|]; [|destruct (Nat.eqb_spec i piv) as [->|]; [|now apply U]].
    - fold (at2 a piv j). rewrite U by done. unfold delta. destruct (Nat.eqb_spec piv j), (Nat.eqb_spec col j); try lia; done.
    - fold (at2 a col j). rewrite U by lia. unfold delta. destruct (Nat.eqb_spec piv j), (Nat.eqb_spec col j); try lia; done. }
  destruct W1 as [L1 W1]. set (ip := gf_div x01 (at2 a1 col col)). set (prow := map (fun x => gf_mul x ip) (nth col a1 [])).
  assert (Lp : length prow = w) by (unfold prow; rewrite map_length; now apply W1).
  assert (Ep : forall j, j < w -> nth j prow x00 = gf_mul (at2 a1 col j) ip) by (intros j Hj; unfold prow; rewrite (nth_map_in _ _ _ _ x00) by (now rewrite W1); done).
  set (g := fun (i : nat) (r : row) => if i =? col then prow else if is0 (nth col r x00) then r else zip_with (fun x y : byte => xor x (gf_mul (nth col r x00) y)) r prow).
  change (wf k w (imap g a1) /\ units k (S col) (imap g a1) /\ forall z, sols k w a z <-> sols k w (imap g a1) z).
  assert (E : forall i j, i < k -> j < w -> at2 (imap g a1) i j = if i =? col then gf_mul (at2 a1 col j) ip else xor (at2 a1 i j) (gf_mul (at2 a1 i col) (gf_mul (at2 a1 col j) ip))).
  { intros i j Hi Hj. change (at2 (imap g a1) i j) with (nth j (nth i (imap g a1) []) x00). rewrite (nth_imap g a1 i [] []) by lia. unfold g. destruct (Nat.eqb_spec i col) as [->|]; [now apply Ep|]. fold (at2 a1 i col). destruct (is0_spec (at2 a1 i col)) as [Z0|NZ0].
    - rewrite Z0, mul_0_l, xor_0_r. done.
    - rewrite (nth_zip_with _ _ _ _ _ x00 x00) by (rewrite ?Lp, ?W1; done). rewrite Ep by done. done. }
  assert (LW : wf k w (imap g a1)).
  { split; [now rewrite imap_length|]. intros i Hi. rewrite (nth_imap g a1 i [] []) by lia. unfold g. destruct (i =? col); [done|]. destruct (is0 _); [now apply W1|]. rewrite zip_with_length, Lp, W1 by done. lia. }
  assert (IP : gf_mul (at2 a1 col col) ip = x01) by (rewrite mul_comm; now apply div_mul).
  split; [done|]. split.
  - intros i j Hi Hj. rewrite E by lia. destruct (Nat.eq_dec j col) as [->|Nj].
    + rewrite IP. unfold delta. destruct (Nat.eqb_spec i col) as [->|]; [done|]. rewrite (mul_comm _ x01), mul_1_l. apply xor_self.
    + assert (Hj' : j < col) by lia. rewrite (U1 i j Hi Hj'), (U1 col j Hc Hj'). replace (delta col j) with x00 by (unfold delta; destruct (Nat.eqb_spec col j); [lia|done]). rewrite ?(U1 col j Hc Hj'), ?mul_0_l, ?mul_0_r, ?xor_0_r. destruct (Nat.eqb_spec i col) as [->|]; [|done]. unfold delta. destruct (Nat.eqb_spec col j); [lia|done].
  - assert (D : forall z i, i < k -> dot w (nth i (imap g a1) []) z = if i =? col then gf_mul ip (dot w (nth col a1 []) z) else xor (dot w (nth i a1 []) z) (gf_mul (gf_mul (at2 a1 i col) ip) (dot w (nth col a1 []) z))).
    { intros z i Hi. unfold dot. rewrite (xsum_ext w _ (fun j => gf_mul (at2 (imap g a1) i j) (z j))) by done. destruct (Nat.eqb_spec i col) as [->|N].
      - rewrite <- xsum_mul. apply xsum_ext. intros j Hj. rewrite E, Nat.eqb_refl by done. unfold at2. ring.
      - rewrite <- xsum_mul, <- xsum_xor. apply xsum_ext. intros j Hj. rewrite E by done. apply Nat.eqb_neq in N. rewrite N. unfold at2. ring. }
    intros z. rewrite S1. unfold sols. split; intros H i Hi.
    + rewrite D by done. destruct (i =? col); rewrite !H by done; now rewrite mul_0_r.
    + assert (Hcol : dot w (nth col a1 []) z = x00).
      { specialize (H col Hc). rewrite D, Nat.eqb_refl in H by done. apply mul_zero in H. destruct H as [H|H]; [|done]. now apply inv_nonzero in H. }
      destruct (Nat.eq_dec i col) as [->|N]; [done|]. specialize (H i Hi). apply Nat.eqb_neq in N. rewrite D, N, Hcol, mul_0_r, xor_0_r in H by done. exact H.
Qed.
Lemma eliminate_none k w a col : wf k w a -> col < k -> k <= w -> units k col a -> eliminate k a col = None ->
  exists z, sols k w a z /\ z col = x01 /\ forall j, k <= j -> z j = x00.
Proof.
  intros W Hc Hw U. unfold eliminate. pose proof (find_pivot_spec (k - col) a col col) as P. cbn zeta in P. set (piv := find_pivot (k - col) a col col) in *. destruct P as (B & Z0 & _). destruct (Nat.eqb_spec piv k) as [Ep|]; [|done]. intros _.
  exists (fun j => if j =? col then x01 else if j <? col then at2 a j col else x00). split; [|split].
  - intros i Hi. unfold dot. fold (at2 a). destruct (Nat.lt_ge_cases i col) as [L|G].
    + rewrite (xsum_two w i col); try lia.
      * fold (at2 a i i) (at2 a i col). rewrite Nat.eqb_refl. rewrite (U i i) by lia. unfold delta. rewrite Nat.eqb_refl. destruct (Nat.eqb_spec i col); [lia|]. rewrite (proj2 (Nat.ltb_lt i col) L). rewrite mul_1_l, (mul_comm _ x01), mul_1_l. apply xor_self.
      * intros j Hj N1 N2. destruct (Nat.eqb_spec j col); [done|]. destruct (Nat.ltb_spec j col); [|now rewrite mul_0_r]. fold (at2 a i j). rewrite (U i j) by lia. unfold delta. destruct (Nat.eqb_spec i j); [lia|done].
    + apply xsum_zero. intros j Hj. fold (at2 a i j). destruct (Nat.eqb_spec j col) as [->|]; [rewrite Z0 by lia; done|]. destruct (Nat.ltb_spec j col); [|now rewrite mul_0_r]. rewrite U by lia. unfold delta. destruct (Nat.eqb_spec i j); [lia|done].
  - now rewrite Nat.eqb_refl.
  - intros j Hj. destruct (Nat.eqb_spec j col); [lia|]. destruct (Nat.ltb_spec j col); [lia|done].
Qed.
Lemma eliminate_from_spec n k w a col : wf k w a -> col + n = k -> k <= w -> units k col a ->
  match eliminate_from n k a col with
  | Some a' => wf k w a' /\ units k k a' /\ forall z, sols k w a z <-> sols k w a' z
  | None => exists z j, j < k /\ sols k w a z /\ z j <> x00 /\ forall j, k <= j -> z j = x00
  end.
Proof.
  revert a col. induction n as [|n IH]; intros a col W E Hw U; cbn [eliminate_from]; [rewrite Nat.add_0_r in E; subst col; done|].
  destruct (eliminate k a col) as [a1|] eqn:E1.
  - apply (eliminate_some k w) in E1 as (W1 & U1 & S1); try done; [|lia]. specialize (IH a1 (S col) W1 ltac:(lia) Hw U1). destruct (eliminate_from n k a1 (S col)) as [a2|].
    + destruct IH as (W2 & U2 & S2). split; [done|]. split; [done|]. intros z. now rewrite S1.
    + destruct IH as (z & j & Hj & Sz & Nz & Hz). exists z, j. now rewrite S1.
  - apply (eliminate_none k w) in E1 as (z & Sz & Nz & Hz); try done; [|lia]. exists z, col. rewrite Nz. split; [lia|done].
Qed.

(** ** Inversion *)
Definition apply_mat (k : nat) (m : list row) (x : nat -> byte) (i : nat) : byte := xsum k (fun j => gf_mul (at2 m i j) (x j)).
Definition augment (m : list row) : list row := imap (fun i r => r ++ map (fun j => if i =? j then x01 else x00) (seq 0 (length m))) m.
Lemma augment_wf k m : wf k k m -> wf k (k + k) (augment m).
Proof. intros [L W]. unfold augment. split; [now rewrite imap_length|]. intros i Hi. rewrite (nth_imap _ m i [] []) by lia. rewrite app_length, map_length, seq_length, W, L by done. done. Qed.
Lemma augment_at k m i j : wf k k m -> i < k -> at2 (augment m) i j = if j <? k then at2 m i j else if j <? k + k then delta i (j - k) else x00.
Proof.
  intros [L W] Hi. unfold augment, at2. rewrite (nth_imap _ m i [] []) by lia. destruct (Nat.ltb_spec j k).
  - rewrite app_nth1 by (now rewrite W). done.
  - rewrite app_nth2 by (now rewrite W). rewrite W by done. destruct (Nat.ltb_spec j (k + k)).
    + rewrite L, nth_seq_map by lia. done.
    + apply nth_overflow. rewrite map_length, seq_length, L. lia.
Qed.
Lemma augment_dot k m i z : wf k k m -> i < k -> dot (k + k) (nth i (augment m) []) z = xor (apply_mat k m z i) (z (k + i)).
Proof.
  intros W Hi. unfold dot. rewrite (xsum_ext _ _ (fun j => gf_mul (at2 (augment m) i j) (z j))) by done. rewrite xsum_app. f_equal.
  - apply xsum_ext. intros j Hj. rewrite (augment_at k) by done. now rewrite (proj2 (Nat.ltb_lt j k) Hj).
  - rewrite (xsum_one k i); try done.
    + rewrite (augment_at k) by done. destruct (Nat.ltb_spec (k + i) k); [lia|]. destruct (Nat.ltb_spec (k + i) (k + k)); [|lia]. unfold delta. replace (k + i - k) with i by lia. rewrite Nat.eqb_refl. apply mul_1_l.
    + intros j Hj N. rewrite (augment_at k) by done. destruct (Nat.ltb_spec (k + j) k); [lia|]. destruct (Nat.ltb_spec (k + j) (k + k)); [|lia]. unfold delta. destruct (Nat.eqb_spec i (k + j - k)); [lia|]. apply mul_0_l.
Qed.
Lemma nth_drop_row k (r : row) j : nth j (drop k r) x00 = nth (k + j) r x00.
Proof. now rewrite !nth_lookup, lookup_drop. Qed.
Theorem invert_some k m n : wf k k m -> invert m = Some n ->
  wf k k n /\ forall x y, (forall i, i < k -> apply_mat k m x i = y i) <-> (forall i, i < k -> x i = apply_mat k n y i).
Proof.
  intros W. unfold invert. fold (augment m). assert (L : length m = k) by apply W. rewrite L.
  pose proof (eliminate_from_spec k k (k + k) (augment m) 0 (augment_wf k m W) ltac:(lia) ltac:(lia) ltac:(intros ? ?; lia)) as S.
  destruct (eliminate_from k k (augment m) 0) as [a|]; [|done]. destruct S as (Wa & U & S). intros [= <-]. destruct Wa as [La Wa].
  assert (N : forall i j, i < k -> at2 (map (fun r => drop k r) a) i j = at2 a i (k + j)) by (intros i j Hi; unfold at2; rewrite (nth_map_in _ _ _ _ []) by lia; apply nth_drop_row).
  split. { split; [now rewrite map_length|]. intros i Hi. rewrite (nth_map_in _ _ _ _ []) by lia. rewrite drop_length, Wa by done. lia. }
  intros x y. specialize (S (fun j => if j <? k then x j else y (j - k))). set (z := fun j => if j <? k then x j else y (j - k)) in *.
  assert (Zl : forall j, j < k -> z j = x j) by (intros j Hj; unfold z; now rewrite (proj2 (Nat.ltb_lt j k) Hj)).
  assert (Zr : forall j, z (k + j) = y j) by (intros j; unfold z; destruct (Nat.ltb_spec (k + j) k); [lia|]; now replace (k + j - k) with j by lia).
  assert (A : sols k (k + k) (augment m) z <-> forall i, i < k -> apply_mat k m x i = y i).
  { unfold sols. split; intros H i Hi; specialize (H i Hi); rewrite augment_dot in * by done; rewrite Zr in *.
    - apply (proj1 (xor_zero _ _)) in H. rewrite <- H. apply xsum_ext. intros j Hj. now rewrite Zl.
    - apply (proj2 (xor_zero _ _)). rewrite <- H. apply xsum_ext. intros j Hj. now rewrite Zl. }
  assert (B : sols k (k + k) a z <-> forall i, i < k -> x i = apply_mat k (map (fun r => drop k r) a) y i).
  { assert (D : forall i, i < k -> dot (k + k) (nth i a []) z = xor (x i) (apply_mat k (map (fun r => drop k r) a) y i)).
    { intros i Hi. unfold dot. rewrite xsum_app. f_equal.
      - rewrite (xsum_one k i); [|done|].
        + fold (at2 a i i). rewrite U by done. unfold delta. rewrite Nat.eqb_refl, mul_1_l. now apply Zl.
        + intros j Hj Nj. fold (at2 a i j). rewrite U by done. unfold delta. destruct (Nat.eqb_spec i j); [lia|apply mul_0_l].
      - apply xsum_ext. intros j Hj. rewrite Zr, N by done. done. }
    unfold sols. split; intros H i Hi; specialize (H i Hi).
    - rewrite D in H by done. now apply (proj1 (xor_zero _ _)).
    - rewrite D by done. now apply (proj2 (xor_zero _ _)). }
  rewrite <- A, <- B. apply S.
Qed.
Theorem invert_none k m : wf k k m -> invert m = None -> exists x j, j < k /\ x j <> x00 /\ forall i, i < k -> apply_mat k m x i = x00.
Proof.
  intros W. unfold invert. fold (augment m). assert (L : length m = k) by apply W. rewrite L.
  pose proof (eliminate_from_spec k k (k + k) (augment m) 0 (augment_wf k m W) ltac:(lia) ltac:(lia) ltac:(intros ? ?; lia)) as S.
  destruct (eliminate_from k k (augment m) 0) as [a|]; [done|]. intros _. destruct S as (z & j & Hj & Sz & Nz & Hz). exists z, j. split; [done|]. split; [done|]. intros i Hi. specialize (Sz i Hi). rewrite augment_dot in Sz by done. rewrite (Hz (k + i)), xor_0_r in Sz by lia. done.
Qed.
Corollary invert_trivial k m : wf k k m -> (forall x, (forall i, i < k -> apply_mat k m x i = x00) -> forall j, j < k -> x j = x00) -> exists n, invert m = Some n.
Proof. intros W T. destruct (invert m) as [n|] eqn:E; [now exists n|]. apply (invert_none k) in E as (x & j & Hj & Nx & H); [|done]. now destruct Nx; apply T. Qed.

(** ** Polynomials *)
Fixpoint eval (p : list byte) (a : byte) : byte := match p with [] => x00 | c :: p => xor c (gf_mul a (eval p a)) end.
Fixpoint quot (p : list byte) (a : byte) : list byte := match p with [] => [] | _ :: p' => match p' with [] => [] | _ => eval p' a :: quot p' a end end.
Lemma quot_length p a : length (quot p a) = pred (length p).
Proof. induction p as [|c [|d p] IH]; [done|done|]. cbn [quot length pred] in *. now rewrite IH. Qed.
Lemma quot_eval p a b : eval p b = xor (eval p a) (gf_mul (xor b a) (eval (quot p a) b)).
Proof.
  induction p as [|c [|d p] IH].
  - cbn. rewrite mul_0_r. reflexivity.
  - cbn. rewrite !mul_0_r. ring.
  - set (p' := d :: p) in *. change (quot (c :: p') a) with (eval p' a :: quot p' a). cbn [eval]. rewrite IH. set (u := eval p' a). set (v := eval (quot p' a) b).
    transitivity (xor (xor c (gf_mul b u)) (gf_mul b (gf_mul (xor b a) v))); [ring|]. transitivity (xor (xor (xor c (gf_mul b u)) (gf_mul b (gf_mul (xor b a) v))) (xor (gf_mul a u) (gf_mul a u))); [rewrite xor_self; ring|ring].
Qed.
Lemma quot_zero p a : eval p a = x00 -> Forall (fun c => c = x00) (quot p a) -> Forall (fun c => c = x00) p.
Proof.
  induction p as [|c [|d p] IH]; intros E Z0; [done| |].
  - cbn in E. rewrite mul_0_r, xor_0_r in E. now constructor.
  - set (p' := d :: p) in *. change (quot (c :: p') a) with (eval p' a :: quot p' a) in Z0. inversion_clear Z0 as [|? ? E' Z']. change (eval p' a = x00) in E'. assert (P : Forall (fun c => c = x00) p') by now apply IH. constructor; [|done]. change (xor c (gf_mul a (eval p' a)) = x00) in E. rewrite E', mul_0_r, xor_0_r in E. exact E.
Qed.
Lemma roots (nodes : list byte) (p : list byte) : List.NoDup nodes -> length p <= length nodes -> (forall a, In a nodes -> eval p a = x00) -> Forall (fun c => c = x00) p.
Proof.
  revert p. induction nodes as [|a nodes IH]; intros p ND L R; [destruct p; [done|cbn in L; lia]|]. inversion_clear ND as [|? ? Na ND']. apply (quot_zero p a); [apply R; now left|].
  apply IH; [done|rewrite quot_length; cbn in L; lia|]. intros b Hb. pose proof (quot_eval p a b) as E. rewrite (R b (or_intror Hb)), (R a (or_introl eq_refl)) in E. rewrite xor_0_l in E. symmetry in E. apply mul_zero in E. destruct E as [E|E]; [|done]. apply (proj1 (xor_zero _ _)) in E. now subst.
Qed.
Lemma vander_eval a k x s : xsum k (fun j => gf_mul (gf_pow a j) (x (s + j))) = eval (map x (seq s k)) a.
Proof.
  revert s. induction k as [|k IH]; intros s; [done|]. rewrite xsum_S_l. cbn [seq map eval]. rewrite <- (IH (S s)), <- xsum_mul. f_equal.
  - cbn. rewrite Nat.add_0_r. apply mul_1_l.
  - apply xsum_ext. intros j Hj. cbn [gf_pow]. rewrite Nat.add_succ_r, Nat.add_succ_l. ring.
Qed.
Lemma node_inj i j : i < 256 -> j < 256 -> u8 (N.of_nat i) = u8 (N.of_nat j) -> i = j.
Proof. intros Hi Hj E. apply (f_equal Byte.to_N) in E. rewrite !u8_val, !N.mod_small in E by lia. lia. Qed.
Lemma nodes_nodup idxs : List.NoDup idxs -> (forall i, In i idxs -> i < 256) -> List.NoDup (map (fun i => u8 (N.of_nat i)) idxs).
Proof.
  induction idxs as [|i idxs IH]; intros ND B; [constructor|]. inversion_clear ND as [|? ? Ni ND']. cbn. constructor; [|apply IH; [done|intros; apply B; now right]].
  intros H. apply in_map_iff in H as (j & E & Hj). apply node_inj in E; [now subst|apply B; now right|apply B; now left].
Qed.
Lemma vander_kernel k idxs x : List.NoDup idxs -> (forall i, In i idxs -> i < 256) -> k <= length idxs ->
  (forall i, In i idxs -> xsum k (fun j => gf_mul (gf_pow (u8 (N.of_nat i)) j) (x j)) = x00) -> forall j, j < k -> x j = x00.
Proof.
  intros ND B L R j Hj. assert (Z0 : Forall (fun c => c = x00) (map x (seq 0 k))).
  { apply (roots (map (fun i => u8 (N.of_nat i)) idxs)); [now apply nodes_nodup|now rewrite !map_length, seq_length|]. intros a Ha. apply in_map_iff in Ha as (i & <- & Hi). rewrite <- (R i Hi). symmetry. apply (vander_eval _ k x 0). }
  rewrite List.Forall_forall in Z0. apply Z0. apply in_map, in_seq. lia.
Qed.

(** ** The encoding matrix *)
Lemma vander_at n k i j : i < n -> j < k -> at2 (vander n k) i j = gf_pow (u8 (N.of_nat i)) j.
Proof. intros Hi Hj. unfold at2, vander. rewrite nth_seq_map by done. now rewrite nth_seq_map. Qed.
Lemma vander_wf n k : wf n k (vander n k).
Proof. split; [unfold vander; now rewrite map_length, seq_length|]. intros i Hi. unfold vander. rewrite nth_seq_map by done. now rewrite map_length, seq_length. Qed.
Lemma nth_take_row (k i : nat) (a : list row) : i < k -> nth i (take k a) [] = nth i a [].
Proof. intros H. rewrite !nth_lookup, lookup_take by done. done. Qed.
Lemma top_wf n k : k <= n -> wf k k (take k (vander n k)).
Proof. intros H. destruct (vander_wf n k) as [L W]. split; [rewrite take_length; lia|]. intros i Hi. rewrite nth_take_row by done. apply W. lia. Qed.
Theorem encode_matrix_spec n k : 0 < k -> k <= n -> n <= 256 -> exists e, encode_matrix n k = Some e /\ wf n k e /\
  (forall d, exists c, (forall i, i < n -> apply_mat k e d i = apply_mat k (vander n k) c i) /\ (forall i, i < k -> apply_mat k (vander n k) c i = d i)).
Proof.
  intros Hk Hn H256. unfold encode_matrix. set (V := vander n k). assert (WT := top_wf n k Hn). fold V in WT.
  assert (TA : forall c i, i < k -> apply_mat k (take k V) c i = apply_mat k V c i) by (intros c i Hi; unfold apply_mat, at2; now rewrite nth_take_row).
  destruct (invert_trivial k (take k V) WT) as [ti Eti].
  { intros x R. apply (vander_kernel k (seq 0 k)); [apply seq_NoDup|intros i Hi; apply in_seq in Hi; lia|now rewrite seq_length|]. intros i Hi. apply in_seq in Hi. rewrite <- (R i) by lia. rewrite TA by lia. apply xsum_ext. intros j Hj. unfold V. rewrite vander_at by lia. done. }
  rewrite Eti. destruct (invert_some k _ _ WT Eti) as [[Lti Wti] Inv]. eexists. split; [reflexivity|].
  assert (A : forall i j, i < n -> j < k -> at2 (matmul V ti) i j = xsum k (fun t => gf_mul (at2 V i t) (at2 ti t j))).
  { intros i j Hi Hj. change (at2 (matmul V ti) i j) with (nth j (nth i (matmul V ti) []) x00). unfold matmul. rewrite (nth_map_in _ _ _ _ []) by (unfold V; destruct (vander_wf n k); lia). rewrite Wti by lia. rewrite nth_seq_map by done. rewrite Lti. done. }
  split.
  - split; [unfold matmul; rewrite map_length; apply vander_wf|]. intros i Hi. unfold matmul. rewrite (nth_map_in _ _ _ _ []) by (unfold V; destruct (vander_wf n k); lia). now rewrite map_length, seq_length, Wti.
  - intros d. exists (apply_mat k ti d). split.
    + intros i Hi. unfold apply_mat. rewrite (xsum_ext k _ (fun j => xsum k (fun t => gf_mul (gf_mul (at2 V i t) (at2 ti t j)) (d j)))).
      * rewrite xsum_swap. apply xsum_ext. intros t Ht. rewrite <- xsum_mul. apply xsum_ext. intros j Hj. ring.
      * intros j Hj. rewrite A by done. rewrite mul_comm, <- xsum_mul. apply xsum_ext. intros t Ht. ring.
    + intros i Hi. rewrite <- TA by done. revert i Hi. now apply Inv.
Qed.
(** Any [k] rows of the encoding matrix are invertible. *)
Theorem encode_matrix_mds n k e idxs : 0 < k -> k <= n -> n <= 256 -> encode_matrix n k = Some e -> List.NoDup idxs -> length idxs = k -> (forall i, In i idxs -> i < n) ->
  let m := map (fun i => nth i e []) idxs in
  exists minv, invert m = Some minv /\ forall x y, (forall r, r < k -> apply_mat k e x (nth r idxs 0) = y r) -> forall j, j < k -> x j = apply_mat k minv y j.
Proof.
  intros Hk Hn H256 Ee ND L B m. destruct (encode_matrix_spec n k Hk Hn H256) as (e' & Ee' & [Le We] & Sp). rewrite Ee in Ee'. injection Ee' as <-.
  assert (M : forall i, i < k -> nth i m [] = nth (nth i idxs 0) e []) by (intros i Hi; unfold m; now rewrite (nth_map_in _ _ _ _ 0) by lia).
  assert (In' : forall r, r < k -> In (nth r idxs 0) idxs) by (intros r Hr; apply nth_In; lia).
  assert (W : wf k k m). { split; [unfold m; now rewrite map_length|]. intros i Hi. rewrite M by done. now apply We, B, In'. }
  assert (AM : forall x r, r < k -> apply_mat k m x r = apply_mat k e x (nth r idxs 0)) by (intros x r Hr; unfold apply_mat, at2; now rewrite M).
  destruct (invert_trivial k m W) as [minv E].
  { intros x R. destruct (Sp x) as (c & S1 & S2).
    assert (C0 : forall t, t < k -> c t = x00).
    { apply (vander_kernel k idxs); [done|intros i Hi; apply B in Hi; lia|lia|]. intros i Hi. destruct (In_nth _ _ 0 Hi) as (r & Hr & Er). rewrite L in Hr. specialize (R r Hr). rewrite AM, Er, S1 in R by (rewrite ?Er; auto). rewrite <- R. apply xsum_ext. intros j Hj. rewrite vander_at by auto. done. }
    intros j Hj. rewrite <- S2 by done. apply xsum_zero. intros t Ht. rewrite C0 by done. apply mul_0_r. }
  exists minv. split; [done|]. destruct (invert_some k m minv W E) as [_ Inv]. intros x y H. apply Inv. intros r Hr. rewrite AM by done. now apply H.
Qed.
