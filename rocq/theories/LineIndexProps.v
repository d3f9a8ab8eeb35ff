(** C45: editor positions. *)
From Coq Require Import ZArith List Lia.
From stdpp Require Import list.
From Verif Require Import Utf8 LineIndexModel.
Open Scope Z_scope.

(** ** Specification: the position of the caret after the characters [p]. *)
Definition lines_in (p : list Z) : nat := length (List.filter (Z.eqb 10) p).
Definition column_after (p : list Z) : nat := fold_left (fun col c => if c =? 10 then 0%nat else (col + len_utf16 c)%nat) p 0%nat.
Definition caret (p : list Z) : lsp_pos := Pos (Z.of_nat (lines_in p)) (Z.of_nat (column_after p)).
(** Texts whose byte length fits [u32]. *)
Definition small_text (t : list Z) : Prop := is_text t /\ Z.of_nat (blen t) < two32.
Definition pos_lt (a b : lsp_pos) : Prop := p_line a < p_line b \/ (p_line a = p_line b /\ p_char a < p_char b).

(** ** Lemmas *)

(** Line starts by character. *)
Fixpoint nl (i : nat) (t : list Z) : list nat :=
  match t with
  | [] => []
  | c :: t => if c =? 10 then S i :: nl (S i) t else nl (i + len_utf8 c) t
  end.
Lemma starts_skip i a b : Forall (fun x => 128 <= x < 256) a -> starts_from i (a ++ b) = starts_from (i + length a) b.
Proof.
  intros H. revert i. induction H as [|x a Hx Ha IH]; intros i; cbn [app starts_from length]; [now rewrite Nat.add_0_r|].
  rewrite (proj2 (Z.eqb_neq x 10)) by lia. rewrite IH. f_equal. lia.
Qed.
Lemma starts_nl i t : is_text t -> starts_from i (bytes t) = nl i t.
Proof.
  intros H. revert i. induction H as [|c t Hc Ht IH]; intros i; [done|]. rewrite bytes_cons. cbn [nl].
  destruct (Z.lt_ge_cases c 128) as [L|L].
  - unfold len_utf8. rewrite !utf8_ascii by done. cbn [app starts_from length]. rewrite !IH. rewrite Nat.add_1_r. done.
  - destruct (utf8_other c Hc L) as [_ F]. rewrite starts_skip by done. rewrite IH. rewrite (proj2 (Z.eqb_neq c 10)) by lia. done.
Qed.
Lemma nl_app i a b : nl i (a ++ b) = nl i a ++ nl (i + blen a) b.
Proof.
  revert i. induction a as [|c a IH]; intros i; cbn [app nl]; [now rewrite Nat.add_0_r|]. rewrite blen_cons. destruct (Z.eqb_spec c 10) as [->|N].
  - rewrite IH. cbn [app]. unfold len_utf8. cbn [utf8 length]. do 3 f_equal. cbn. lia.
  - rewrite IH. do 2 f_equal. lia.
Qed.
Lemma nl_length i t : length (nl i t) = lines_in t.
Proof.
  unfold lines_in. revert i. induction t as [|c t IH]; intros i; [done|]. cbn [nl List.filter]. rewrite (Z.eqb_sym 10 c). destruct (c =? 10); cbn [length]; now rewrite IH.
Qed.
Lemma nl_bounds i t x : x ∈ nl i t -> (i < x <= i + blen t)%nat.
Proof.
  revert i. induction t as [|c t IH]; intros i; cbn [nl]; [now rewrite elem_of_nil|]. rewrite blen_cons. pose proof (len_utf8_pos c).
  destruct (c =? 10) eqn:E.
  - apply Z.eqb_eq in E. subst c. replace (len_utf8 10) with 1%nat by reflexivity. intros [->|Hx]%elem_of_cons; [lia|]. apply IH in Hx. lia.
  - intros Hx. apply IH in Hx. lia.
Qed.
Lemma no_nl_nil i t : 10 ∉ t -> nl i t = [].
Proof.
  revert i. induction t as [|c t IH]; intros i H; [done|]. cbn [nl]. apply not_elem_of_cons in H as [H1 H2].
  rewrite (proj2 (Z.eqb_neq c 10)) by congruence. auto.
Qed.
Lemma partition_app f a b : Forall (fun x => f x = true) a -> Forall (fun x => f x = false) b -> partition_point f (a ++ b) = length a.
Proof.
  intros Ha Hb. induction Ha as [|x a Hx Ha IH]; cbn [app partition_point].
  - destruct Hb as [|y b Hy Hb]; [done|]. cbn. now rewrite Hy.
  - rewrite Hx. cbn. now rewrite IH.
Qed.

(** The last line of a text: everything after its last newline. *)
Lemma last_line p : exists a l, p = a ++ l /\ 10 ∉ l /\ (a = [] \/ exists a', a = a' ++ [10]).
Proof.
  induction p as [|c p (a & l & -> & H & Ha)] using rev_ind.
  - exists [], []. split; [done|]. split; [apply not_elem_of_nil|now left].
  - destruct (decide (c = 10)) as [->|N].
    + exists ((a ++ l) ++ [10]), []. rewrite app_nil_r. split; [done|]. split; [apply not_elem_of_nil|right; eauto].
    + exists a, (l ++ [c]). split; [now rewrite app_assoc|]. split; [|done]. rewrite elem_of_app, elem_of_list_singleton. intuition congruence.
Qed.
Lemma first_line q : exists l r, q = l ++ r /\ 10 ∉ l /\ (r = [] \/ exists r', r = 10 :: r').
Proof.
  induction q as [|c q (l & r & -> & H & Hr)].
  - exists [], []. split; [done|]. split; [apply not_elem_of_nil|now left].
  - destruct (decide (c = 10)) as [->|N].
    + exists [], (10 :: l ++ r). split; [done|]. split; [apply not_elem_of_nil|right; eauto].
    + exists (c :: l), r. split; [done|]. split; [|done]. rewrite elem_of_cons. intuition congruence.
Qed.
Lemma column_app a l : column_after (a ++ l) = fold_left (fun col c => if c =? 10 then 0%nat else (col + len_utf16 c)%nat) l (column_after a).
Proof. unfold column_after. now rewrite fold_left_app. Qed.
Lemma column_line k l : 10 ∉ l -> fold_left (fun col c => if c =? 10 then 0%nat else (col + len_utf16 c)%nat) l k = (k + utf16_count l)%nat.
Proof.
  revert k. induction l as [|c l IH]; intros k H; cbn [fold_left]; [unfold utf16_count; cbn; lia|]. apply not_elem_of_cons in H as [H1 H2].
  rewrite (proj2 (Z.eqb_neq c 10)) by congruence. rewrite IH by done. change (c :: l) with ([c] ++ l). rewrite utf16_app. unfold utf16_count at 2. cbn. lia.
Qed.
Lemma column_start a : (a = [] \/ exists a', a = a' ++ [10]) -> column_after a = 0%nat.
Proof. intros [->|[a' ->]]; [done|]. unfold column_after. now rewrite fold_left_app. Qed.
Lemma lines_app a b : lines_in (a ++ b) = (lines_in a + lines_in b)%nat.
Proof. unfold lines_in. now rewrite List.filter_app, app_length. Qed.
Lemma lines_none l : 10 ∉ l -> lines_in l = 0%nat.
Proof. intros H. rewrite <- (nl_length 0), no_nl_nil by done. done. Qed.

Lemma starts_lookup t a l : is_text t -> t = a ++ l -> (a = [] \/ exists a', a = a' ++ [10]) -> (0%nat :: starts_from 0 (bytes t)) !! lines_in a = Some (blen a).
Proof.
  intros T E H. rewrite starts_nl by done. subst t. rewrite nl_app. destruct H as [->|[a' ->]]; [done|].
  rewrite lines_app. replace (lines_in [10]) with 1%nat by reflexivity. rewrite Nat.add_1_r.
  change ((0%nat :: ?x) !! S ?n) with (x !! n). cbn [lookup list_lookup].
  rewrite lookup_app_l by (rewrite nl_length, lines_app; cbn; lia).
  rewrite nl_app. rewrite lookup_app_r by (rewrite nl_length; lia). rewrite nl_length, Nat.sub_diag. cbn. rewrite blen_app. f_equal. cbn. lia.
Qed.
Lemma starts_lookup_none t n : is_text t -> (lines_in t < n)%nat -> (0%nat :: starts_from 0 (bytes t)) !! n = None.
Proof. intros T H. apply lookup_ge_None. cbn [length]. rewrite starts_nl, nl_length by done. lia. Qed.

Lemma blen_pos_cons c t : (0 < blen (c :: t))%nat.
Proof. rewrite blen_cons. pose proof (len_utf8_pos c). lia. Qed.

Lemma as_u32_small t n : Z.of_nat (blen t) < two32 -> (n <= blen t)%nat -> as_u32 n = Z.of_nat n.
Proof. intros H L. unfold as_u32. apply Z.mod_small. lia. Qed.

Lemma lines_le t : (lines_in t <= blen t)%nat.
Proof.
  induction t as [|c t IH]; [done|]. rewrite blen_cons. unfold lines_in in *. cbn [List.filter]. pose proof (len_utf8_pos c). destruct (10 =? c); cbn [length]; lia.
Qed.

Lemma position_spec p q : small_text (p ++ q) -> position (li_new (p ++ q)) (blen p) = Some (caret p).
Proof.
  intros [T S]. unfold position, li_new. cbn [li_starts li_source]. cbv zeta.
  rewrite Nat.min_l by (rewrite blen_app; lia).
  assert (P : partition_point (fun start => Nat.leb start (blen p)) (0%nat :: starts_from 0 (bytes (p ++ q))) = Datatypes.S (lines_in p)).
  { rewrite starts_nl by done. rewrite nl_app. change (0%nat :: nl 0 p ++ nl (0 + blen p) q) with ((0%nat :: nl 0 p) ++ nl (0 + blen p) q).
    rewrite partition_app; [cbn; now rewrite nl_length|..].
    - constructor; [apply Nat.leb_le; lia|]. apply Forall_forall. intros x Hx. apply nl_bounds in Hx. apply Nat.leb_le. lia.
    - apply Forall_forall. intros x Hx. apply nl_bounds in Hx. apply Nat.leb_gt. lia. }
  rewrite P. replace (Datatypes.S (lines_in p) - 1)%nat with (lines_in p) by lia.
  destruct (last_line p) as (a & l & E & Hl & Ha).
  assert (L : lines_in p = lines_in a) by (rewrite E, lines_app, (lines_none l) by done; lia).
  rewrite L. rewrite (starts_lookup (p ++ q) a (l ++ q)) by (try done; now rewrite E, app_assoc).
  rewrite E, <- app_assoc, blen_app, str_slice_app. unfold caret.
  assert (B : (blen p <= blen (p ++ q))%nat) by (rewrite blen_app; lia).
  rewrite <- E, <- L. f_equal. f_equal.
  - apply (as_u32_small (p ++ q)); [done|]. pose proof (lines_le p). lia.
  - rewrite E, column_app, column_start, column_line by done. apply (as_u32_small (p ++ q)); [done|].
    pose proof (utf16_le l). rewrite E, !blen_app in *. lia.
Qed.

Lemma scan_spec ls k u target t : 0 <= u -> u + Z.of_nat (utf16_count t) < two32 ->
  match offset_scan ls k u target t with
  | Some o => exists a b, t = a ++ b /\ b <> [] /\ o = (ls + k + blen a)%nat /\ target <= u + Z.of_nat (utf16_count a) /\
      (forall a' b', a = a' ++ b' -> b' <> [] -> u + Z.of_nat (utf16_count a') < target)
  | None => forall a b, t = a ++ b -> b <> [] -> u + Z.of_nat (utf16_count a) < target
  end.
Proof.
  revert k u. induction t as [|c t IH]; intros k u Hu Hs; cbn [offset_scan].
  - intros a b E N. symmetry in E. apply app_eq_nil in E as [_ ->]. done.
  - assert (W : utf16_count (c :: t) = (len_utf16 c + utf16_count t)%nat) by done. rewrite W in Hs.
    destruct (Z.leb_spec target u) as [H|H].
    + exists [], (c :: t). split; [done|]. split; [done|]. split; [cbn; lia|]. split; [cbn; lia|].
      intros a' b' E N. symmetry in E. apply app_eq_nil in E as [_ ->]. done.
    + rewrite (Z.mod_small (u + Z.of_nat (len_utf16 c))) by lia.
      specialize (IH (k + len_utf8 c)%nat (u + Z.of_nat (len_utf16 c)) ltac:(lia) ltac:(lia)).
      destruct (offset_scan ls (k + len_utf8 c) (u + Z.of_nat (len_utf16 c)) target t) as [o|].
      * destruct IH as (a & b & -> & Nb & -> & G & M). exists (c :: a), b. split; [done|]. split; [done|]. split; [rewrite blen_cons; lia|].
        split; [unfold utf16_count in *; cbn [map list_sum fold_right] in *; change (fold_right Nat.add 0%nat (map len_utf16 a)) with (list_sum (map len_utf16 a)); lia|].
        intros a' b' E N. destruct a' as [|c' a']; [cbn; lia|]. injection E as <- E. specialize (M a' b' E N).
        unfold utf16_count in *; cbn [map list_sum fold_right] in *; change (fold_right Nat.add 0%nat (map len_utf16 a')) with (list_sum (map len_utf16 a')); lia.
      * intros a b E N. destruct a as [|c' a]; [cbn; lia|]. injection E as <- E. specialize (IH a b E N).
        unfold utf16_count in *; cbn [map list_sum fold_right] in *; change (fold_right Nat.add 0%nat (map len_utf16 a)) with (list_sum (map len_utf16 a)); lia.
Qed.

(** The line with number [line]: [t = a ++ l ++ r], where [a] ends just before it and [l] includes
    its newline, if any. *)
Lemma line_slice t line : is_text t -> (line <= lines_in t)%nat ->
  exists a l r, t = a ++ l ++ r /\ lines_in a = line /\ (a = [] \/ exists a', a = a' ++ [10]) /\
    ((10 ∉ l /\ r = []) \/ (exists l', l = l' ++ [10] /\ 10 ∉ l')).
Proof.
  intros T. revert line. induction t as [|c t IH] using rev_ind; intros line H.
  - exists [], [], []. unfold lines_in in *. cbn in *. split; [done|]. split; [lia|]. split; [now left|]. left. split; [apply not_elem_of_nil|done].
  - apply Forall_app in T as [T _]. specialize (IH T). rewrite lines_app in H.
    destruct (decide (line = lines_in (t ++ [c]))) as [->|N].
    + destruct (last_line (t ++ [c])) as (a & l & E & Hl & Ha). exists a, l, []. rewrite app_nil_r. split; [done|].
      split; [rewrite E, lines_app, (lines_none l) by done; lia|]. split; [done|]. left. done.
    + assert (H' : (line <= lines_in t)%nat).
      { rewrite lines_app in N. unfold lines_in in N, H |- *. cbn [List.filter] in *. destruct (10 =? c); cbn [length] in *; lia. }
      destruct (IH line H') as (a & l & r & E & Hl & Ha & D). destruct D as [[D ->]|D].
      * rewrite app_nil_r in E. assert (c = 10) as ->.
        { destruct (decide (c = 10)); [done|]. exfalso. apply N. rewrite E, !lines_app, (lines_none l), (lines_none [c]) by (try done; rewrite elem_of_list_singleton; congruence). lia. }
        exists a, (l ++ [10]), []. split; [rewrite E, app_nil_r; now rewrite app_assoc|]. split; [done|]. split; [done|]. right. eauto.
      * exists a, l, (r ++ [c]). split; [rewrite E; now rewrite <- !app_assoc|]. split; [done|]. split; [done|]. right. done.
Qed.

Lemma line_end_lookup t a l r : is_text t -> t = a ++ l ++ r -> (a = [] \/ exists a', a = a' ++ [10]) ->
  ((10 ∉ l /\ r = []) \/ (exists l', l = l' ++ [10] /\ 10 ∉ l')) ->
  default (blen t) ((0%nat :: starts_from 0 (bytes t)) !! (lines_in a + 1)%nat) = blen (a ++ l).
Proof.
  intros T E Ha [[D ->]|(l' & -> & D)].
  - rewrite starts_lookup_none; [cbn; now rewrite E, app_nil_r|done|]. rewrite E, app_nil_r, lines_app, (lines_none l) by done. lia.
  - replace (lines_in a + 1)%nat with (lines_in (a ++ l' ++ [10])) by (rewrite !lines_app, (lines_none l') by done; replace (lines_in [10]) with 1%nat by reflexivity; lia).
    rewrite (starts_lookup t (a ++ l' ++ [10]) r); [done|done|rewrite E; now rewrite <- !app_assoc|]. right. exists (a ++ l'). now rewrite app_assoc.
Qed.

(** The offset of a position: in the line, the first character boundary whose column reaches the
    target, or the end of the line if there is none. *)
Lemma offset_spec t line ch : small_text t -> 0 <= line <= Z.of_nat (lines_in t) ->
  exists a l r, t = a ++ l ++ r /\ Z.of_nat (lines_in a) = line /\ (a = [] \/ exists a', a = a' ++ [10]) /\
    ((10 ∉ l /\ r = []) \/ (exists l', l = l' ++ [10] /\ 10 ∉ l')) /\
    exists x y, l = x ++ y /\ offset (li_new t) (Pos line ch) = Some (blen (a ++ x)) /\
      (y <> [] -> ch <= Z.of_nat (utf16_count x)) /\ (forall x' y', x = x' ++ y' -> y' <> [] -> Z.of_nat (utf16_count x') < ch).
Proof.
  intros [T S] H. destruct (line_slice t (Z.to_nat line) T ltac:(lia)) as (a & l & r & E & Hl & Ha & D).
  exists a, l, r. split; [done|]. split; [lia|]. split; [done|]. split; [done|].
  unfold offset, li_new. cbn [li_starts li_source p_line p_char]. cbv zeta. rewrite <- Hl.
  rewrite (starts_lookup t a (l ++ r)) by done. rewrite (line_end_lookup t a l r) by done.
  assert (SL : str_slice t (blen a) (blen (a ++ l)) = Some l) by (rewrite E, blen_app; apply str_slice_app). rewrite SL.
  pose proof (scan_spec (blen a) 0 0 ch l ltac:(lia)) as SC.
  assert (W : 0 + Z.of_nat (utf16_count l) < two32). { pose proof (utf16_le l). rewrite E, !blen_app in S. lia. }
  specialize (SC W). destruct (offset_scan (blen a) 0 0 ch l) as [o|].
  - destruct SC as (x & y & -> & Ny & -> & G & M). exists x, y. split; [done|]. split; [rewrite blen_app; do 2 f_equal; lia|]. split; [intros _; lia|].
    intros x' y' Ex Ey. specialize (M x' y' Ex Ey). lia.
  - exists l, []. split; [now rewrite app_nil_r|]. split; [done|]. split; [done|]. intros x' y' Ex Ey. specialize (SC x' y' Ex Ey). lia.
Qed.

(** ** C45 *)

(** The position of a byte offset at a character boundary is the caret position: the number of
    newlines before it, and the UTF-16 length of the text since the last one. *)
Theorem C45_position p q : small_text (p ++ q) -> position (li_new (p ++ q)) (blen p) = Some (caret p).
Proof. apply position_spec. Qed.

(** Offsets past the end are clamped to the end; offsets inside a character panic. *)
Theorem C45_position_clamps t o : small_text t -> (blen t <= o)%nat -> position (li_new t) o = Some (caret t).
Proof.
  intros S H. pose proof (position_spec t []) as P. rewrite app_nil_r in P. rewrite <- (P S).
  unfold position, li_new. cbn [li_source]. rewrite Nat.min_r, Nat.min_id by lia. done.
Qed.
Theorem C45_position_panics_inside t o : (o < blen t)%nat -> ~ boundary t o -> position (li_new t) o = None.
Proof.
  intros H B. unfold position, li_new. cbn [li_starts li_source]. cbv zeta. rewrite Nat.min_l by lia.
  destruct (_ !! _) as [s|]; [|done]. destruct (str_slice t s o) eqn:E; [|done]. exfalso. unfold str_slice in E.
  destruct (Nat.leb s o); [|discriminate]. destruct (split_at t o) as [[a b]|] eqn:E2; [|discriminate]. apply B. exists a, b. now apply split_at_some in E2.
Qed.

(** Converting to a position and back returns the same offset, for every character boundary. *)
Theorem C45_roundtrip p q : small_text (p ++ q) -> exists pos, position (li_new (p ++ q)) (blen p) = Some pos /\ offset (li_new (p ++ q)) pos = Some (blen p).
Proof.
  intros S. exists (caret p). split; [now apply position_spec|].
  destruct (offset_spec (p ++ q) (Z.of_nat (lines_in p)) (Z.of_nat (column_after p)) S) as (a & l & r & E & Hl & Ha & D & x & y & El & O & G & M).
  { rewrite lines_app. lia. }
  unfold caret. rewrite O. f_equal. destruct (last_line p) as (a' & l' & Ep & Hl' & Ha').
  (* the line found is the one of the caret *)
  assert (Eq : a = a').
  { apply (blen_prefix_inj (p ++ q)); [exists (l ++ r); done|exists (l' ++ q); now rewrite Ep, app_assoc|].
    destruct S as [T _]. pose proof (starts_lookup (p ++ q) a (l ++ r) T E Ha) as L1.
    pose proof (starts_lookup (p ++ q) a' (l' ++ q) T ltac:(now rewrite Ep, app_assoc) Ha') as L2.
    replace (lines_in a') with (lines_in a) in L2; [congruence|]. assert (lines_in p = lines_in a') by (rewrite Ep, lines_app, (lines_none l') by done; lia). lia. }
  subst a'. assert (C : column_after p = utf16_count l') by (rewrite Ep, column_app, column_start, column_line by done; done).
  rewrite C in G, M. rewrite Ep. f_equal. f_equal.
  assert (Er : l ++ r = l' ++ q). { rewrite Ep, <- app_assoc in E. apply app_inv_head in E. done. }
  rewrite El, <- app_assoc in Er. (* x and l' are prefixes of the same text *)
  apply app_eq_inv in Er as [(k & -> & _)|(k & -> & Ek)].
  - destruct k as [|c k]; [now rewrite app_nil_r|]. exfalso.
    specialize (M l' (c :: k) eq_refl ltac:(done)). lia.
  - destruct k as [|c k]; [now rewrite app_nil_r|]. destruct y as [|d y].
    + rewrite app_nil_r in El. subst l. destruct D as [[_ ->]|(l'' & -> & D)].
      * discriminate Ek.
      * exfalso. apply Hl'. rewrite !elem_of_app. left. right. now left.
    + specialize (G ltac:(done)). rewrite utf16_app in G. unfold utf16_count in G at 2. cbn [map list_sum fold_right] in G. pose proof (len_utf16_pos c). lia.
Qed.

(** Positions are strictly monotone in the offset. *)
Lemma caret_monotone p m : m <> [] -> pos_lt (caret p) (caret (p ++ m)).
Proof.
  intros N. unfold pos_lt, caret. cbn [p_line p_char]. rewrite lines_app. destruct (decide (10 ∈ m)) as [I|I].
  - left. assert (0 < lines_in m)%nat; [|lia]. unfold lines_in. destruct (List.filter (Z.eqb 10) m) eqn:E; [|cbn; lia].
    exfalso. apply elem_of_list_In in I. assert (X : In 10 (List.filter (Z.eqb 10) m)) by (apply filter_In; split; done). rewrite E in X. done.
  - right. split; [rewrite (lines_none m) by done; lia|]. rewrite column_app, column_line by done.
    assert (0 < utf16_count m)%nat; [|lia]. destruct m as [|c m]; [done|]. unfold utf16_count. cbn. pose proof (len_utf16_pos c). lia.
Qed.

Theorem C45_monotone t o1 o2 a b : small_text t -> (o1 < o2 <= blen t)%nat ->
  position (li_new t) o1 = Some a -> position (li_new t) o2 = Some b -> pos_lt a b.
Proof.
  intros S H E1 E2.
  assert (B : forall o x, (o <= blen t)%nat -> position (li_new t) o = Some x -> exists p q, t = p ++ q /\ o = blen p).
  { intros o x Ho E. unfold position, li_new in E. cbn [li_starts li_source] in E. cbv zeta in E. rewrite Nat.min_l in E by lia.
    destruct (_ !! _) as [s|]; [|discriminate]. unfold str_slice in E. destruct (Nat.leb s o); [|discriminate].
    destruct (split_at t o) as [[p q]|] eqn:E'; [|discriminate]. exists p, q. now apply split_at_some in E'. }
  destruct (B o1 a ltac:(lia) E1) as (p1 & q1 & T1 & ->). destruct (B o2 b ltac:(lia) E2) as (p2 & q2 & T2 & ->).
  rewrite T1 in E1. rewrite position_spec in E1 by now rewrite <- T1. injection E1 as <-.
  rewrite T2 in E2. rewrite position_spec in E2 by now rewrite <- T2. injection E2 as <-.
  rewrite T1 in T2. apply app_eq_inv in T2 as [(k & -> & _)|(k & -> & _)]; rewrite blen_app in H; [lia|].
  apply caret_monotone. intros ->. cbn in H. lia.
Qed.

(** Every position, valid or not, converts to a character boundary: the smallest one of its line
    at or after the column, else the end of the line; lines past the last give the end of text. *)
Theorem C45_offset_total t pos : small_text t -> 0 <= p_line pos -> exists o, offset (li_new t) pos = Some o /\ boundary t o.
Proof.
  intros S H. destruct pos as [line ch]. cbn [p_line] in H. destruct (Z.le_gt_cases line (Z.of_nat (lines_in t))).
  - destruct (offset_spec t line ch S) as (a & l & r & E & _ & _ & _ & x & y & El & O & _); [lia|]. rewrite O. eexists. split; [done|].
    exists (a ++ x), (y ++ r). split; [rewrite E, El; now rewrite <- !app_assoc|done].
  - unfold offset, li_new. cbn [li_starts li_source p_line]. rewrite starts_lookup_none by (try apply S; lia). eexists. split; [done|]. exists t, []. now rewrite app_nil_r.
Qed.
Theorem C45_offset_past_last_line t line ch : small_text t -> Z.of_nat (lines_in t) < line -> offset (li_new t) (Pos line ch) = Some (blen t).
Proof. intros S H. unfold offset, li_new. cbn [li_starts li_source p_line]. rewrite starts_lookup_none by (try apply S; lia). done. Qed.
Theorem C45_offset_inside p c q : small_text (p ++ c :: q) -> c <> 10 ->
  forall ch, Z.of_nat (column_after p) < ch <= Z.of_nat (column_after p + len_utf16 c) ->
  offset (li_new (p ++ c :: q)) (Pos (Z.of_nat (lines_in p)) ch) = Some (blen (p ++ [c])).
Proof.
  intros S N ch H.
  destruct (offset_spec (p ++ c :: q) (Z.of_nat (lines_in p)) ch S) as (a & l & r & E & Hl & Ha & D & x & y & El & O & G & M); [rewrite lines_app; lia|].
  rewrite O. f_equal. destruct (last_line p) as (a' & l' & Ep & Hl' & Ha').
  assert (Eq : a = a').
  { apply (blen_prefix_inj (p ++ c :: q)); [exists (l ++ r); done|exists (l' ++ c :: q); now rewrite Ep, app_assoc|].
    destruct S as [T _]. pose proof (starts_lookup (p ++ c :: q) a (l ++ r) T E Ha) as L1.
    pose proof (starts_lookup (p ++ c :: q) a' (l' ++ c :: q) T ltac:(now rewrite Ep, app_assoc) Ha') as L2.
    replace (lines_in a') with (lines_in a) in L2; [congruence|]. assert (lines_in p = lines_in a') by (rewrite Ep, lines_app, (lines_none l') by done; lia). lia. }
  subst a'. assert (C : column_after p = utf16_count l') by (rewrite Ep, column_app, column_start, column_line by done; done).
  rewrite C in H. rewrite Ep. rewrite <- app_assoc. f_equal. f_equal.
  assert (Er : l ++ r = (l' ++ [c]) ++ q). { rewrite Ep, <- app_assoc in E. apply app_inv_head in E. rewrite <- E. now rewrite <- app_assoc. }
  rewrite El, <- app_assoc in Er.
  assert (W : utf16_count (l' ++ [c]) = (utf16_count l' + len_utf16 c)%nat) by (rewrite utf16_app; unfold utf16_count at 2; cbn; lia).
  assert (Nl : 10 ∉ l' ++ [c]) by (rewrite elem_of_app, elem_of_list_singleton; intuition congruence).
  apply app_eq_inv in Er as [(k & -> & _)|(k & Ek & Ek')].
  - destruct k as [|d k]; [now rewrite app_nil_r|]. exfalso. specialize (M (l' ++ [c]) (d :: k) eq_refl ltac:(done)). lia.
  - destruct k as [|d k]; [now rewrite Ek, app_nil_r|]. exfalso. rewrite Ek in W.
    destruct y as [|e y].
    + rewrite app_nil_r in El. subst l. destruct D as [[_ ->]|(l'' & -> & D)]; [discriminate Ek'|].
      apply Nl. rewrite Ek, !elem_of_app. left. right. now left.
    + specialize (G ltac:(done)). assert (P : utf16_count x = utf16_count l').
      { clear - Ek G H W. destruct k as [|d' k] using rev_ind; [|clear IHk].
        - apply app_inj_tail in Ek as [<- _]. done.
        - change (x ++ d :: k ++ [d']) with (x ++ (d :: k) ++ [d']) in Ek. rewrite app_assoc in Ek. apply app_inj_tail in Ek as [-> <-].
          rewrite utf16_app in *. unfold utf16_count at 2 in H. cbn in H. pose proof (len_utf16_pos d). lia. }
      lia.
Qed.

(** A column past the end of a line should stay on that line (that is what the editor protocol
    asks for); the offset returned is the start of the next line. *)
Theorem C45_past_line_end_refuted : exists t line ch o pos, small_text t /\ 0 <= line <= Z.of_nat (lines_in t) /\
  offset (li_new t) (Pos line ch) = Some o /\ position (li_new t) o = Some pos /\ p_line pos <> line.
Proof.
  exists [97; 10; 98], 0, 5, 2%nat, (Pos 1 0). split; [split; [repeat constructor; unfold is_char; lia|reflexivity]|]. repeat split; vm_compute; congruence.
Qed.

(** The UTF-16 length of a byte range between boundaries is that of the characters in it. *)
Theorem C45_utf16_length p m q : small_text (p ++ m ++ q) -> utf16_length (li_new (p ++ m ++ q)) (blen p) (blen p + blen m) = Some (Z.of_nat (utf16_count m)).
Proof.
  intros [_ S]. unfold utf16_length, li_new. cbn [li_source]. cbv zeta. rewrite !blen_app in *. rewrite !Nat.min_l by lia.
  destruct (Nat.leb_spec (blen p + blen m) (blen p)).
  - destruct m as [|c m]; [done|]. pose proof (blen_pos_cons c m). lia.
  - rewrite str_slice_app. f_equal. unfold as_u32. apply Z.mod_small. pose proof (utf16_le m). lia.
Qed.

(** "a😀\né": one character outside the basic plane, a newline, a two-byte character. *)
Example C45_example : let t := [97; 128512; 10; 233] in
  small_text t /\ position (li_new t) 5 = Some (Pos 0 3) /\ offset (li_new t) (Pos 0 3) = Some 5%nat /\ offset (li_new t) (Pos 0 2) = Some 5%nat /\
  position (li_new t) 8 = Some (Pos 1 1) /\ position (li_new t) 3 = None.
Proof. cbv zeta. split; [split; [repeat constructor; unfold is_char; lia|reflexivity]|]. repeat split; reflexivity. Qed.

Print Assumptions C45_position.
Print Assumptions C45_position_clamps.
Print Assumptions C45_position_panics_inside.
Print Assumptions C45_roundtrip.
Print Assumptions C45_monotone.
Print Assumptions C45_offset_total.
Print Assumptions C45_offset_past_last_line.
Print Assumptions C45_offset_inside.
Print Assumptions C45_past_line_end_refuted.
Print Assumptions C45_utf16_length.
