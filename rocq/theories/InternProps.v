(** C35: interned symbols identify strings. *)
From Coq Require Import NArith ZArith String List Lia.
From stdpp Require Import gmap strings.
From Verif Require Import InternModel.

(** Invariant of an interner after a history of at most [2^32 - 1] strings. *)
Record in_ok (ss : list string) (i : interner) : Prop := {
  ok_len : (length (in_vec i) <= S (length ss))%nat;
  ok_map : forall s k, in_map i !! s = Some k -> (1 <= k)%N /\ in_vec i !! N.to_nat k = Some s;
  ok_vec : forall k s, (1 <= k)%nat -> in_vec i !! k = Some s -> in_map i !! s = Some (N.of_nat k);
  ok_dom : forall s, is_Some (in_map i !! s) <-> s ∈ ss;
  ok_head : in_vec i !! 0%nat = Some ""%string
}.

Definition fits (ss : list string) : Prop := (Z.of_nat (length ss) < 4294967295)%Z.

Lemma intern_all_snoc ss s : intern_all (ss ++ [s]) = (intern (intern_all ss) s).1.
Proof. unfold intern_all. now rewrite fold_left_app. Qed.

Lemma in_ok_new : in_ok [] in_new.
Proof.
  constructor; cbn.
  - lia.
  - intros s k. now rewrite lookup_empty.
  - intros [|[|k]] s; [lia|discriminate|discriminate].
  - intros s. rewrite lookup_empty. split; [intros [? [=]]|intros H; now apply elem_of_nil in H].
  - done.
Qed.

Lemma in_ok_step ss i s : fits (ss ++ [s]) -> in_ok ss i -> in_ok (ss ++ [s]) (intern i s).1.
Proof.
  intros F [L M V D H]. unfold fits in F. rewrite app_length in F. cbn [length] in F. unfold intern. destruct (in_map i !! s) as [k|] eqn:E; cbn.
  - constructor; try done.
    + rewrite app_length. lia.
    + intros t. rewrite elem_of_app, elem_of_list_singleton, <- D. split; [now left|]. intros [?| ->]; [done|now rewrite E].
  - assert (B : (N.of_nat (length (in_vec i)) mod 4294967296 = N.of_nat (length (in_vec i)))%N) by (apply N.mod_small; lia).
    assert (Pos : (1 <= length (in_vec i))%nat) by (apply lookup_lt_Some in H; lia).
    rewrite B. constructor; cbn.
    + rewrite !app_length. cbn. lia.
    + intros t k. rewrite lookup_insert_Some. intros [[<- <-]|[Hn Hk]].
      * split; [lia|]. rewrite Nat2N.id. now apply list_lookup_middle.
      * destruct (M t k Hk) as [? Hv]. split; [done|]. now apply lookup_app_l_Some.
    + intros k t Hk. rewrite lookup_app_Some. intros [Hv|[Hl Hv]].
      * rewrite lookup_insert_ne; [now apply V|]. intros ->. rewrite (V k t Hk Hv) in E. discriminate.
      * rewrite list_lookup_singleton_Some in Hv. destruct Hv as [Hz <-]. rewrite lookup_insert. f_equal. lia.
    + intros t. rewrite elem_of_app, elem_of_list_singleton, <- D, lookup_insert_is_Some. clear. destruct (decide (s = t)); intuition congruence.
    + now apply lookup_app_l_Some.
Qed.

Lemma in_ok_all ss : fits ss -> in_ok ss (intern_all ss).
Proof.
  induction ss as [|s ss IH] using rev_ind; intros F; [apply in_ok_new|].
  rewrite intern_all_snoc. apply in_ok_step; [done|]. apply IH. unfold fits in *. rewrite app_length in F. cbn in F. lia.
Qed.

Lemma intern_ok ss s : fits (ss ++ [s]) -> in_map (intern (intern_all ss) s).1 !! s = Some (intern (intern_all ss) s).2.
Proof.
  intros F. unfold intern. destruct (in_map (intern_all ss) !! s) as [k|] eqn:E; cbn; [done|]. now rewrite lookup_insert.
Qed.

Lemma map_grows ss ss' s k : in_map (intern_all ss) !! s = Some k -> in_map (intern_all (ss ++ ss')) !! s = Some k.
Proof.
  induction ss' as [|t ss' IH] using rev_ind; intros H; [now rewrite app_nil_r|].
  rewrite app_assoc, intern_all_snoc. specialize (IH H). unfold intern. destruct (in_map (intern_all (ss ++ ss')) !! t) eqn:E; cbn; [done|].
  rewrite lookup_insert_ne; [done|congruence].
Qed.

(** ** C35 Interned symbols identify strings *)

(** The symbol returned for a string keeps resolving to it, whatever is interned later;
    interning or looking it up again gives the same symbol. (At most [2^32 - 2] calls.) *)
Theorem C35_stable ss s ss' : fits (ss ++ [s] ++ ss') ->
  let sym := (intern (intern_all ss) s).2 in
  let later := intern_all (ss ++ [s] ++ ss') in
  resolve later sym = Some s /\ (intern later s).2 = sym /\ (intern later s).1 = later /\ lookup_sym later s = Some sym /\
  sym_is later sym s = Some true /\ sym <> sym_empty.
Proof.
  intros F sym later.
  assert (K : in_map later !! s = Some sym).
  { subst later. rewrite app_assoc. apply map_grows. rewrite intern_all_snoc. apply intern_ok. unfold fits in *. rewrite !app_length in *. cbn in *. lia. }
  destruct (in_ok_all _ F) as [_ M _ _ _]. fold later in M. destruct (M _ _ K) as [Hs Hv].
  assert (R : resolve later sym = Some s) by exact Hv.
  repeat split; try done.
  - unfold intern. now rewrite K.
  - unfold intern. now rewrite K.
  - unfold sym_is. rewrite R. now rewrite String.eqb_refl.
  - unfold sym_empty. lia.
Qed.

(** Two calls in a history return the same symbol exactly when their strings are equal. *)
Theorem C35_injective ss s ss' t : fits (ss ++ [s] ++ ss' ++ [t]) ->
  (intern (intern_all ss) s).2 = (intern (intern_all (ss ++ [s] ++ ss')) t).2 <-> s = t.
Proof.
  intros F. assert (F1 : fits (ss ++ [s] ++ ss')) by (unfold fits in *; rewrite !app_length in *; cbn in *; lia).
  destruct (C35_stable ss s ss' F1) as (_ & E & _). cbv zeta in E. split; [|intros <-; congruence]. intros H.
  assert (F2 : fits ((ss ++ [s] ++ ss') ++ [t] ++ [])) by (unfold fits in *; rewrite !app_length in *; cbn in *; lia).
  destruct (C35_stable _ t [] F2) as (R & _). cbv zeta in R. rewrite <- H in R.
  assert (F3 : fits (ss ++ [s] ++ (ss' ++ [t]))) by (unfold fits in *; rewrite !app_length in *; cbn in *; lia).
  destruct (C35_stable ss s (ss' ++ [t]) F3) as (R' & _). cbv zeta in R'.
  rewrite app_nil_r in R. rewrite <- !app_assoc in R. congruence.
Qed.

(** [lookup] finds exactly the strings interned so far, never adds one, and [len] counts the
    distinct strings plus the initial entry. *)
Theorem C35_lookup ss s : fits ss ->
  (is_Some (lookup_sym (intern_all ss) s) <-> s ∈ ss) /\
  in_len (intern_all ss) = S (length (remove_dups ss)) /\
  (in_is_empty (intern_all ss) = true <-> ss = []).
Proof.
  intros F. pose proof (in_ok_all ss F) as [L M V D H]. split; [apply D|].
  assert (E : in_len (intern_all ss) = S (length (remove_dups ss))).
  { unfold in_len. destruct (in_vec (intern_all ss)) as [|e v] eqn:Ev; [done|]. cbn [length]. f_equal.
    apply Permutation_length, NoDup_Permutation.
    - apply NoDup_alt. intros i j x Hi Hj.
      assert (Vi : in_map (intern_all ss) !! x = Some (N.of_nat (S i))) by (apply V; [lia|now rewrite ?Ev]).
      assert (Vj : in_map (intern_all ss) !! x = Some (N.of_nat (S j))) by (apply V; [lia|now rewrite ?Ev]).
      rewrite Vi in Vj. injection Vj. lia.
    - apply NoDup_remove_dups.
    - intros x. rewrite elem_of_remove_dups, <- D, elem_of_list_lookup. split.
      + intros [i Hi]. exists (N.of_nat (S i)). apply V; [lia|now rewrite ?Ev].
      + intros [k Hk]. destruct (M x k Hk) as [Hp Hx]. exists (pred (N.to_nat k)). rewrite ?Ev in Hx.
        destruct (N.to_nat k) eqn:Ek; [lia|]. exact Hx. }
  split; [exact E|]. unfold in_is_empty. unfold in_len in E. rewrite E. rewrite Nat.leb_le. split; [|now intros ->].
  intros Hl. destruct ss as [|x ss]; [done|]. exfalso.
  assert (I : x ∈ remove_dups (x :: ss)) by (rewrite elem_of_remove_dups; left).
  destruct (remove_dups (x :: ss)); [now apply elem_of_nil in I|cbn in Hl; lia].
Qed.

(** The interner is documented as starting "with only the empty string pre-interned", but the
    empty string is not in the map: looking it up fails, and interning it makes a second symbol
    different from [Symbol::EMPTY] although both resolve to the empty string. *)
Theorem C35_empty_string_refuted :
  lookup_sym in_new "" = None /\ resolve in_new sym_empty = Some ""%string /\
  exists sym, (intern in_new "").2 = sym /\ sym <> sym_empty /\ resolve (intern in_new "").1 sym = Some ""%string /\
    resolve (intern in_new "").1 sym_empty = Some ""%string.
Proof. split; [reflexivity|]. split; [reflexivity|]. exists 1%N. repeat split; try reflexivity. discriminate. Qed.

Example C35_example :
  fits ["hello"; "world"; "hello"; ""]%string /\
  (intern (intern_all ["hello"]) "world").2 = 2%N /\ (intern (intern_all ["hello"; "world"]) "hello").2 = 1%N /\
  resolve (intern_all ["hello"; "world"; "hello"; ""]) 2 = Some "world"%string /\
  in_len (intern_all ["hello"; "world"; "hello"; ""]) = 4%nat.
Proof. repeat split. Qed.

Print Assumptions C35_stable.
Print Assumptions C35_injective.
Print Assumptions C35_lookup.
Print Assumptions C35_empty_string_refuted.
