(** C28: fractions are exact and in lowest terms. *)
From Coq Require Import ZArith List Lia QArith Qround Qabs Qpower Lqa.
From stdpp Require Import list.
From Verif Require Import MachInt BigIntModel BigIntProofs BigIntZ BigIntText BigIntProps RationalModel RationalQ.
Open Scope Z_scope.

(** ** Texts *)
Definition spaces (s : list Z) : Prop := Forall (fun c => is_space c = true) s.
(** An integer as text: optional sign, one or more digits. *)
Definition int_text (t : list Z) (z : Z) : Prop :=
  exists sg ds, t = sg ++ ds /\ (sg = [] \/ sg = [43] \/ sg = [45]) /\ ds <> [] /\ Forall is_digit ds /\ z = (if bool_decide (sg = [45]) then - dec_value ds else dec_value ds).
Lemma parse_int t b : bi_parse_decimal t = Some b <-> canon b /\ int_text t (bval b).
Proof.
  rewrite C27_parse. unfold int_text. split.
  - intros (sg & ds & -> & Hs & N & F & C & V). split; [done|]. exists sg, ds. done.
  - intros (C & sg & ds & -> & Hs & N & F & V). exists sg, ds. done.
Qed.
Lemma parse_int_of t z : int_text t z -> bi_parse_decimal t = Some (of_Z z).
Proof. intros H. apply parse_int. split; [apply canon_of_Z|]. now rewrite bval_of_Z. Qed.
Lemma int_text_chars t z : int_text t z -> t <> [] /\ Forall (fun c => is_space c = false /\ c <> 47) t.
Proof.
  intros (sg & ds & -> & Hs & N & F & _). split; [destruct sg, ds; done|]. apply Forall_app. split.
  - destruct Hs as [-> |[-> | ->]]; [constructor| |]; (apply Forall_cons_2; [split; [done|lia]|constructor]).
  - eapply Forall_impl; [exact F|]. intros d Hd. unfold is_digit in Hd. unfold is_space. destruct (Z.leb_spec d 13); [lia|]. rewrite andb_false_r. destruct (Z.eqb_spec d 32); [lia|]. split; [done|lia].
Qed.
Lemma trim_start_split s : exists a, s = a ++ trim_start s /\ spaces a /\ match trim_start s with c :: _ => is_space c = false | [] => True end.
Proof.
  induction s as [|c s (a & E & Ha & Hh)]; [exists []; split; [done|split; [constructor|done]]|]. cbn. destruct (is_space c) eqn:Hc; [|exists []; split; [done|]; split; [constructor|exact Hc]].
  exists (c :: a). cbn. rewrite <- E. split; [done|]. split; [now constructor|done].
Qed.
Lemma trim_split s : exists a b, s = a ++ trim s ++ b /\ spaces a /\ spaces b.
Proof.
  destruct (trim_start_split s) as (a & E & Ha & _). destruct (trim_start_split (rev (trim_start s))) as (b & E2 & Hb & _). exists a, (rev b). split; [|split; [done|now apply List.Forall_rev]].
  rewrite E at 1. f_equal. unfold trim. rewrite <- rev_app_distr, <- E2. now rewrite rev_involutive.
Qed.
Lemma trim_start_spaces a t : spaces a -> match t with c :: _ => is_space c = false | [] => True end -> trim_start (a ++ t) = t.
Proof. intros H Ht. induction H as [|c a Hc H IH]; cbn; [destruct t as [|c t]; [done|cbn; now rewrite Ht]|now rewrite Hc]. Qed.
Lemma trim_mid a x t y b : spaces a -> spaces b -> is_space x = false -> is_space y = false -> trim (a ++ (x :: t ++ [y]) ++ b) = x :: t ++ [y].
Proof.
  intros Ha Hb Hx Hy. unfold trim. rewrite (trim_start_spaces a) by done. change (x :: t ++ [y]) with ((x :: t) ++ [y]). rewrite !rev_app_distr. cbn [rev app].
  rewrite (trim_start_spaces (rev b)); [|now apply List.Forall_rev|done]. cbn [rev app]. rewrite rev_app_distr. cbn. rewrite rev_involutive. done.
Qed.
Lemma trim_mid' a t b : spaces a -> spaces b -> t <> [] -> is_space (hd 0 t) = false -> is_space (List.last t 0) = false -> trim (a ++ t ++ b) = t.
Proof.
  intros Ha Hb N Hh Hl. destruct t as [|x t]; [done|]. cbn in Hh. destruct t as [|y t _] using rev_ind.
  - unfold trim. rewrite (trim_start_spaces a) by done. cbn [app rev]. rewrite (trim_start_spaces (rev b)); [done|now apply List.Forall_rev|done].
  - change (x :: t ++ [y]) with ((x :: t) ++ [y]) in Hl. rewrite List.last_last in Hl. now apply trim_mid.
Qed.
Lemma hd_chars (P : Z -> Prop) t : t <> [] -> Forall P t -> P (hd 0 t) /\ P (List.last t 0).
Proof.
  intros N F. destruct t as [|x t]; [done|]. split; [now inversion F|]. destruct t as [|y t _] using rev_ind; [now inversion F|].
  change (x :: t ++ [y]) with ((x :: t) ++ [y]) in *. rewrite List.last_last. apply Forall_app in F as [_ F]. now inversion F.
Qed.
Lemma trim_int a t z b : spaces a -> spaces b -> int_text t z -> trim (a ++ t ++ b) = t.
Proof. intros Ha Hb H. destruct (int_text_chars t z H) as [N F]. destruct (hd_chars _ t N F) as [[? _] [? _]]. now apply trim_mid'. Qed.
Lemma split_once_none sep s : Forall (fun c => c <> sep) s -> split_once sep s = None.
Proof. induction 1 as [|c s H F IH]; cbn; [done|]. destruct (Z.eqb_spec c sep); [done|]. now rewrite IH. Qed.
Lemma split_once_some sep a b : Forall (fun c => c <> sep) a -> split_once sep (a ++ sep :: b) = Some (a, b).
Proof. induction 1 as [|c s H F IH]; cbn; [now rewrite Z.eqb_refl|]. destruct (Z.eqb_spec c sep); [done|]. now rewrite IH. Qed.
Lemma split_once_inv sep s a b : split_once sep s = Some (a, b) -> s = a ++ sep :: b.
Proof.
  revert a b. induction s as [|c s IH]; intros a b; cbn; [done|]. destruct (Z.eqb_spec c sep) as [->|]; [intros [= <- <-]; done|].
  destruct (split_once sep s) as [[a' b']|] eqn:E; [|done]. intros [= <- <-]. cbn. f_equal. now apply IH.
Qed.
Lemma spaces_no_slash a : spaces a -> Forall (fun c => c <> 47) a.
Proof. intros H. eapply Forall_impl; [exact H|]. intros c Hc ->. done. Qed.
Lemma chars_no_slash t z : int_text t z -> Forall (fun c => c <> 47) t.
Proof. intros H. destruct (int_text_chars t z H) as [_ F]. eapply Forall_impl; [exact F|]. cbn. tauto. Qed.

(** The texts of fractions and the numbers they spell. *)
Inductive rat_text : list Z -> Q -> Prop :=
  | text_int a t b z : spaces a -> spaces b -> int_text t z -> rat_text (a ++ t ++ b) (inject_Z z)
  | text_frac a t b c u d n m : spaces a -> spaces b -> spaces c -> spaces d -> int_text t n -> int_text u m -> m <> 0 ->
      rat_text ((a ++ t ++ b) ++ [47] ++ (c ++ u ++ d)) (inject_Z n / inject_Z m).
Lemma parse_text s q : rat_text s q -> rat_parse s = Some (Some (ofQ q)).
Proof.
  intros H. inversion H as [a t b z Ha Hb Ht|a t b c u d n m Ha Hb Hc Hd Ht Hu Hm]; subst; unfold rat_parse.
  - rewrite (trim_int a t z b) by done. rewrite split_once_none by now apply (chars_no_slash t z). rewrite (parse_int_of t z) by done. now rewrite from_bigint_ofQ.
  - destruct (int_text_chars t n Ht) as [Nt Ft]. destruct (int_text_chars u m Hu) as [Nu Fu]. destruct (hd_chars _ t Nt Ft) as [[St _] _]. destruct (hd_chars _ u Nu Fu) as [_ [Su _]].
    replace ((a ++ t ++ b) ++ [47] ++ c ++ u ++ d) with (a ++ ((t ++ b) ++ 47 :: (c ++ u)) ++ d) by (repeat (rewrite <- app_assoc; cbn [app]); done).
    rewrite trim_mid'; [|done|done|destruct t; done| |].
    + rewrite split_once_some by (apply Forall_app; split; [now apply (chars_no_slash t n)|now apply spaces_no_slash]).
      rewrite <- (app_nil_l (t ++ b)), (trim_int [] t n b) by (done || constructor). rewrite (parse_int_of t n) by done.
      replace (c ++ u) with (c ++ u ++ []) by (now rewrite app_nil_r). rewrite (trim_int c u m []) by (done || constructor). rewrite (parse_int_of u m) by done.
      rewrite new_of_Z. destruct (Z.eqb_spec m 0); done.
    + destruct t; done.
    + assert (L : List.last ((t ++ b) ++ 47 :: c ++ u) 0 = List.last u 0); [|now rewrite L]. destruct u as [|y u _] using rev_ind; [done|].
      replace ((t ++ b) ++ 47 :: c ++ u ++ [y]) with (((t ++ b) ++ 47 :: c ++ u) ++ [y]) by (repeat (rewrite <- app_assoc; cbn [app]); done). now rewrite !List.last_last.
Qed.
Lemma parse_text_only s o : rat_parse s = o -> match o with None => False | Some None => True | Some (Some r) => exists q, rat_text s q /\ r = ofQ q end.
Proof.
  intros <-. unfold rat_parse. destruct (trim_split s) as (a & b & E & Ha & Hb). destruct (split_once 47 (trim s)) as [[n d]|] eqn:Sp.
  - destruct (bi_parse_decimal (trim n)) as [num|] eqn:En; [|done]. destruct (bi_parse_decimal (trim d)) as [den|] eqn:Ed; [|done].
    apply parse_int in En as [Cn Tn]. apply parse_int in Ed as [Cd Td]. rewrite <- (of_Z_bval num Cn), <- (of_Z_bval den Cd), new_of_Z. destruct (Z.eqb_spec (bval den) 0) as [|N]; [done|].
    eexists. split; [|reflexivity]. apply split_once_inv in Sp. destruct (trim_split n) as (a1 & b1 & E1 & Ha1 & Hb1). destruct (trim_split d) as (a2 & b2 & E2 & Ha2 & Hb2).
    assert (s = ((a ++ a1) ++ trim n ++ b1) ++ [47] ++ (a2 ++ trim d ++ (b2 ++ b))) as ->.
    { rewrite E at 1. rewrite Sp. rewrite E1 at 1. rewrite E2 at 1. repeat (rewrite <- app_assoc; cbn [app]). done. }
    apply text_frac; try done; apply Forall_app; done.
  - destruct (bi_parse_decimal (trim s)) as [num|] eqn:En; [|done]. apply parse_int in En as [Cn Tn]. exists (inject_Z (bval num)). split; [|now rewrite <- from_bigint_ofQ, of_Z_bval].
    rewrite E. now apply text_int.
Qed.

(** ** The fractions programs can hold *)
Inductive rbuilt : rational -> Prop :=
  | rbuilt_new n d r : built n -> built d -> rat_new n d = Some (Some r) -> rbuilt r
  | rbuilt_bigint n : built n -> rbuilt (rat_from_bigint n)
  | rbuilt_zero : rbuilt rat_zero
  | rbuilt_i64 x : is_i64 x -> rbuilt (rat_from_i64 x)
  | rbuilt_parse s r : rat_parse s = Some (Some r) -> rbuilt r
  | rbuilt_negated x : rbuilt x -> rbuilt (rat_negated x)
  | rbuilt_abs x : rbuilt x -> rbuilt (rat_abs x)
  | rbuilt_recip x r : rbuilt x -> rat_recip x = Some (Some r) -> rbuilt r
  | rbuilt_add x y r : rbuilt x -> rbuilt y -> rat_add x y = Some r -> rbuilt r
  | rbuilt_sub x y r : rbuilt x -> rbuilt y -> rat_sub x y = Some r -> rbuilt r
  | rbuilt_mul x y r : rbuilt x -> rbuilt y -> rat_mul x y = Some r -> rbuilt r
  | rbuilt_div x y r : rbuilt x -> rbuilt y -> rat_div x y = Some (Some r) -> rbuilt r
  | rbuilt_pow x e r : rbuilt x -> - 2 ^ 31 <= e < 2 ^ 31 -> rat_pow x e = Some (Some r) -> rbuilt r.
(** Canonical integers as numbers. *)
Lemma built_of_Z b : built b -> b = of_Z (bval b).
Proof. intros H. symmetry. now apply of_Z_bval, C27_canonical. Qed.

(** Lowest terms, positive denominator, canonical parts: whatever the construction. *)
Theorem C28_lowest_terms x : rbuilt x -> rcanon x.
Proof.
  induction 1 as [n d r Hn Hd E|n Hn| |x Hx|s r E|x H IH|x H IH|x r H IH E|x y r Hx IHx Hy IHy E|x y r Hx IHx Hy IHy E|x y r Hx IHx Hy IHy E|x y r Hx IHx Hy IHy E|x e r H IH He E].
  - rewrite (built_of_Z n Hn), (built_of_Z d Hd), new_of_Z in E. destruct (bval d =? 0); [done|]. injection E as <-. apply rcanon_ofQ.
  - rewrite (built_of_Z n Hn), from_bigint_ofQ. apply rcanon_ofQ.
  - rewrite rat_zero_ofQ. apply rcanon_ofQ.
  - rewrite from_i64_ofQ by done. apply rcanon_ofQ.
  - apply parse_text_only in E as (q & _ & ->). apply rcanon_ofQ.
  - rewrite <- (ofQ_rval x IH), rnegated_ofQ. apply rcanon_ofQ.
  - rewrite <- (ofQ_rval x IH), rabs_ofQ. apply rcanon_ofQ.
  - rewrite <- (ofQ_rval x IH), recip_ofQ in E. destruct (Qis0 (rval x)); [done|]. injection E as <-. apply rcanon_ofQ.
  - rewrite <- (ofQ_rval x IHx), <- (ofQ_rval y IHy), add_ofQ in E. injection E as <-. apply rcanon_ofQ.
  - rewrite <- (ofQ_rval x IHx), <- (ofQ_rval y IHy), sub_ofQ in E. injection E as <-. apply rcanon_ofQ.
  - rewrite <- (ofQ_rval x IHx), <- (ofQ_rval y IHy), rmul_ofQ in E. injection E as <-. apply rcanon_ofQ.
  - rewrite <- (ofQ_rval x IHx), <- (ofQ_rval y IHy), div_ofQ in E. destruct (Qis0 (rval y)); [done|]. injection E as <-. apply rcanon_ofQ.
  - rewrite <- (ofQ_rval x IH), rpow_ofQ in E by done. destruct ((e <? 0) && Qis0 (rval x)); [done|]. injection E as <-. apply rcanon_ofQ.
Qed.
Lemma rbuilt_ofQ x : rbuilt x -> x = ofQ (rval x).
Proof. intros H. symmetry. now apply ofQ_rval, C28_lowest_terms. Qed.
Ltac toQ H := rewrite ?(rbuilt_ofQ _ H).

(** The constructor refuses a zero denominator and nothing else; it never panics. *)
Theorem C28_new n d : built n -> built d ->
  (bval d = 0 /\ rat_new n d = Some None) \/ (bval d <> 0 /\ exists r, rat_new n d = Some (Some r) /\ (rval r == inject_Z (bval n) / inject_Z (bval d))%Q).
Proof.
  intros Hn Hd. rewrite (built_of_Z n Hn), (built_of_Z d Hd), new_of_Z, !bval_of_Z. destruct (Z.eqb_spec (bval d) 0) as [|N]; [left; done|right]. split; [done|]. eexists. split; [reflexivity|apply rval_ofQ].
Qed.
Theorem C28_constants n x : (built n -> (rval (rat_from_bigint n) == inject_Z (bval n))%Q) /\ (is_i64 x -> (rval (rat_from_i64 x) == inject_Z x)%Q) /\ (rval rat_zero == 0)%Q /\ (rval rat_one == 1)%Q.
Proof.
  split; [intros H; rewrite (built_of_Z n H), from_bigint_ofQ, bval_of_Z; apply rval_ofQ|]. split; [intros H; rewrite from_i64_ofQ by done; apply rval_ofQ|]. rewrite rat_zero_ofQ, rat_one_ofQ. split; apply rval_ofQ.
Qed.
(** Addition, subtraction, multiplication: exact, for all arguments. *)
Theorem C28_ring x y : rbuilt x -> rbuilt y ->
  exists s d p, rat_add x y = Some s /\ rat_sub x y = Some d /\ rat_mul x y = Some p /\
  (rval s == rval x + rval y)%Q /\ (rval d == rval x - rval y)%Q /\ (rval p == rval x * rval y)%Q.
Proof.
  intros Hx Hy. exists (ofQ (rval x + rval y)), (ofQ (rval x - rval y)), (ofQ (rval x * rval y)). rewrite !rval_ofQ. rewrite <- add_ofQ, <- sub_ofQ, <- rmul_ofQ, <- (rbuilt_ofQ x Hx), <- (rbuilt_ofQ y Hy). repeat split; reflexivity.
Qed.
Theorem C28_div x y : rbuilt x -> rbuilt y ->
  ((rval y == 0)%Q /\ rat_div x y = Some None) \/ (~ (rval y == 0)%Q /\ exists r, rat_div x y = Some (Some r) /\ (rval r * rval y == rval x)%Q).
Proof.
  intros Hx Hy. pose proof (div_ofQ (rval x) (rval y)) as E. rewrite <- (rbuilt_ofQ x Hx), <- (rbuilt_ofQ y Hy) in E. rewrite E. destruct (Qis0_spec (rval y)) as [Z0|N]; [left; done|right].
  split; [done|]. eexists. split; [reflexivity|]. rewrite rval_ofQ. field. exact N.
Qed.
Theorem C28_recip x : rbuilt x ->
  ((rval x == 0)%Q /\ rat_recip x = Some None) \/ (~ (rval x == 0)%Q /\ exists r, rat_recip x = Some (Some r) /\ (rval r * rval x == 1)%Q).
Proof.
  intros Hx. pose proof (recip_ofQ (rval x)) as E. rewrite <- (rbuilt_ofQ x Hx) in E. rewrite E. destruct (Qis0_spec (rval x)) as [Z0|N]; [left; done|right].
  split; [done|]. eexists. split; [reflexivity|]. rewrite rval_ofQ. field. exact N.
Qed.
Theorem C28_signs x : rbuilt x ->
  (rval (rat_negated x) == - rval x)%Q /\ (rval (rat_abs x) == Qabs (rval x))%Q /\ (rat_is_zero x = true <-> (rval x == 0)%Q) /\
  (rat_is_negative x = true <-> (rval x < 0)%Q) /\ (rat_is_positive x = true <-> (0 < rval x)%Q).
Proof.
  intros Hx. set (q := rval x). rewrite (rbuilt_ofQ x Hx). fold q. rewrite rnegated_ofQ, rabs_ofQ, ris_zero_ofQ, ris_negative_ofQ, ris_positive_ofQ. split; [apply rval_ofQ|]. split; [apply rval_ofQ|].
  split; [destruct (Qis0_spec q); split; try done|]. split; [destruct (Qneg_spec q); split; done|]. rewrite Z.ltb_lt. unfold Qlt. cbn. lia.
Qed.
(** Every [i32] exponent; refused only for zero to a negative power. *)
Theorem C28_pow x e : rbuilt x -> - 2 ^ 31 <= e < 2 ^ 31 ->
  ((e < 0 /\ (rval x == 0)%Q) /\ rat_pow x e = Some None) \/ (~ (e < 0 /\ (rval x == 0)%Q) /\ exists r, rat_pow x e = Some (Some r) /\ (rval r == Qpower (rval x) e)%Q).
Proof.
  intros Hx He. pose proof (rpow_ofQ (rval x) e He) as E. rewrite <- (rbuilt_ofQ x Hx) in E. rewrite E. destruct (Z.ltb_spec e 0), (Qis0_spec (rval x)); cbn [andb]; [left; tauto|right|right|right].
  all: split; [try tauto; intros [? ?]; lia|]; eexists; split; [reflexivity|apply rval_ofQ].
Qed.
(** Equality and order are those of the numbers. *)
Theorem C28_equality x y : rbuilt x -> rbuilt y -> (rat_eqb x y = true <-> (rval x == rval y)%Q) /\ (x = y <-> (rval x == rval y)%Q).
Proof.
  intros Hx%C28_lowest_terms Hy%C28_lowest_terms. rewrite rat_eqb_iff. split; (split; [now intros ->|now apply rational_inj]).
Qed.
Theorem C28_order x y : rbuilt x -> rbuilt y -> rat_cmp x y = (rval x ?= rval y)%Q.
Proof. intros Hx Hy. rewrite (rbuilt_ofQ x Hx), (rbuilt_ofQ y Hy) at 1. apply rcmp_ofQ. Qed.
(** Whole numbers. *)
Theorem C28_integers x : rbuilt x ->
  (rat_is_integer x = true <-> exists z, (rval x == inject_Z z)%Q) /\
  (forall b, rat_to_bigint x = Some b <-> canon b /\ (rval x == inject_Z (bval b))%Q) /\
  (forall n, rat_to_i64 x = Some n <-> is_i64 n /\ (rval x == inject_Z n)%Q).
Proof.
  intros Hx. set (q := rval x). rewrite (rbuilt_ofQ x Hx). fold q. split; [apply is_integer_ofQ|]. split; intros; [apply to_bigint_ofQ|apply rat_to_i64_ofQ].
Qed.
(** Rounding to an integer: towards minus infinity, plus infinity, and the nearest integer with ties
    away from zero. *)
Theorem C28_floor_ceil x : rbuilt x -> exists f c, rat_floor x = Some f /\ rat_ceil x = Some c /\ canon f /\ canon c /\
  (inject_Z (bval f) <= rval x)%Q /\ (rval x < inject_Z (bval f + 1))%Q /\ (rval x <= inject_Z (bval c))%Q /\ (inject_Z (bval c - 1) < rval x)%Q.
Proof.
  intros Hx. exists (of_Z (Qfloor (rval x))), (of_Z (Qceiling (rval x))). rewrite !bval_of_Z. rewrite <- floor_ofQ, <- ceil_ofQ, <- (rbuilt_ofQ x Hx). split; [done|]. split; [done|]. split; [apply canon_of_Z|]. split; [apply canon_of_Z|].
  split; [apply Qfloor_le|]. split; [apply Qlt_floor|]. split; [apply Qle_ceiling|]. apply Qceiling_lt.
Qed.
Theorem C28_round x : rbuilt x -> exists b, rat_round x = Some b /\ canon b /\
  (Qabs (rval x - inject_Z (bval b)) <= 1 # 2)%Q /\ ((Qabs (rval x - inject_Z (bval b)) == 1 # 2)%Q -> (Qabs (rval x) < Qabs (inject_Z (bval b)))%Q).
Proof.
  intros Hx. eexists. split; [rewrite (rbuilt_ofQ x Hx) at 1; apply round_ofQ|]. split; [apply canon_of_Z|]. rewrite bval_of_Z. generalize (rval x). clear x Hx. intros q.
  assert (K : forall p, (Qabs (p - inject_Z (Qfloor (p + (1 # 2)))) <= 1 # 2)%Q /\ ((Qabs (p - inject_Z (Qfloor (p + (1 # 2)))) == 1 # 2)%Q -> (p < inject_Z (Qfloor (p + (1 # 2))))%Q)).
  { intros p. pose proof (Qfloor_le (p + (1 # 2))) as L. pose proof (Qlt_floor (p + (1 # 2))) as U. rewrite inject_Z_plus in U. set (f := inject_Z (Qfloor (p + (1 # 2)))) in *. change (inject_Z 1) with 1%Q in U. split.
    - apply Qabs_Qle_condition. split; lra.
    - intros E. destruct (Qlt_le_dec p f) as [|G]; [done|]. rewrite Qabs_pos in E by lra. exfalso. lra. }
  destruct (Qneg_spec q) as [N|N].
  - destruct (K (- q)%Q) as [K1 K2]. set (f := Qfloor (- q + (1 # 2))) in *. rewrite inject_Z_opp.
    assert (A : (Qabs (q - - inject_Z f) == Qabs (- q - inject_Z f))%Q). { rewrite <- Qabs_opp. apply Qabs_wd. ring. } rewrite A. split; [done|]. intros E. specialize (K2 E).
    rewrite Qabs_opp. rewrite (Qabs_neg q) by lra. rewrite Qabs_pos by lra. done.
  - destruct (K q) as [K1 K2]. split; [done|]. intros E. specialize (K2 E). assert (0 <= q)%Q by (destruct (Qlt_le_dec q 0); [done|lra]). rewrite (Qabs_pos q) by done. rewrite Qabs_pos by lra. done.
Qed.
(** Text: exactly an integer, or two integers around a slash with a nonzero second one, with spaces
    around each; the value is the one spelled. Anything else is refused; nothing panics. *)
Theorem C28_parse s : rat_parse s <> None /\
  (forall q, rat_text s q -> exists r, rat_parse s = Some (Some r) /\ (rval r == q)%Q) /\
  (forall r, rat_parse s = Some (Some r) -> exists q, rat_text s q /\ (rval r == q)%Q).
Proof.
  split; [|split].
  - intros E. pose proof (parse_text_only s None E). done.
  - intros q H. exists (ofQ q). split; [now apply parse_text|apply rval_ofQ].
  - intros r E. apply parse_text_only in E as (q & T & ->). exists q. split; [done|apply rval_ofQ].
Qed.
Lemma show_text z : exists s, bi_show (of_Z z) = Some s /\ int_text s z.
Proof.
  destruct (show_of_Z z) as (ds & E & (F & N & _) & V). eexists. split; [exact E|]. exists (if z <? 0 then [45] else []), ds. split; [done|]. split; [destruct (z <? 0); tauto|]. split; [done|]. split; [done|]. rewrite V.
  destruct (Z.ltb_spec z 0); [rewrite bool_decide_eq_true_2 by done|rewrite bool_decide_eq_false_2 by done]; lia.
Qed.
(** Display never panics, is read back as the same fraction, and is "n" or "n/d" in lowest terms. *)
Theorem C28_text_roundtrip x : rbuilt x -> exists s, rat_show x = Some s /\ rat_parse s = Some (Some x) /\
  exists n d, (rval x == n # d)%Q /\ Z.gcd n (Zpos d) = 1 /\ exists a b, int_text a n /\ int_text b (Zpos d) /\ s = if (d =? 1)%positive then a else a ++ [47] ++ b.
Proof.
  intros Hx. rewrite (rbuilt_ofQ x Hx). set (q := rval x). clearbody q. clear x Hx. unfold rat_show, rat_is_integer.
  destruct (ofQ_parts q) as (n & d & E & P & G & V). rewrite E. cbn [r_num r_den ratz]. rewrite one_of_Z, eqb_of_Z.
  destruct (show_text n) as (a & Ea & Ta). destruct (show_text d) as (b & Eb & Tb). rewrite Ea, Eb.
  assert (Vr : (rval (ratz n d) == n # Z.to_pos d)%Q) by (rewrite <- E, rval_ofQ; exact V).
  destruct (Z.eqb_spec d 1) as [D1|D1].
  - subst d. exists a. split; [done|]. split.
    + rewrite (parse_text a (inject_Z n)); [rewrite <- E; do 2 f_equal; apply ofQ_proper; symmetry; exact V|]. rewrite <- (app_nil_r a). change (a ++ []) with ([] ++ a ++ []). apply text_int; [constructor|constructor|done].
    + exists n, 1%positive. split; [exact Vr|]. split; [done|]. exists a, b. done.
  - exists (a ++ [47] ++ b). split; [done|]. split.
    + rewrite (parse_text (a ++ [47] ++ b) (inject_Z n / inject_Z d)%Q); [rewrite <- E; do 2 f_equal; apply ofQ_proper; rewrite V; now apply Qfrac_pos|].
      pose proof (text_frac [] a [] [] b [] n d) as T. cbn [app] in T. rewrite !app_nil_r in T. apply T; try (constructor; fail); try done. lia.
    + exists n, (Z.to_pos d). rewrite Z2Pos.id by done. split; [exact Vr|]. split; [done|]. exists a, b. split; [done|]. split; [done|]. destruct (Pos.eqb_spec (Z.to_pos d) 1) as [X|X]; [|done]. exfalso. apply D1. rewrite <- (Z2Pos.id d), X by done. done.
Qed.

(** ** Examples *)
Example ex_new : rat_new (bi_from_i64 6) (bi_from_i64 (-4)) = Some (Some (Rat (bi_from_i64 (-3)) (bi_from_i64 2))). Proof. vm_compute. reflexivity. Qed.
Example ex_rbuilt : rbuilt (Rat (bi_from_i64 (-3)) (bi_from_i64 2)).
Proof. apply (rbuilt_new (bi_from_i64 6) (bi_from_i64 (-4))); [apply built_i64; unfold is_i64; lia|apply built_i64; unfold is_i64; lia|exact ex_new]. Qed.
Example ex_third : exists t s, rat_div rat_one (rat_from_i64 3) = Some (Some t) /\ rat_add t t = Some s /\ rat_add s t = Some rat_one. Proof. exists (Rat bi_one (bi_from_i64 3)), (Rat (bi_from_i64 2) (bi_from_i64 3)). vm_compute. done. Qed.
Example ex_rounds : rat_floor (Rat (bi_from_i64 (-7)) (bi_from_i64 2)) = Some (bi_from_i64 (-4)) /\ rat_ceil (Rat (bi_from_i64 (-7)) (bi_from_i64 2)) = Some (bi_from_i64 (-3)) /\ rat_round (Rat (bi_from_i64 (-7)) (bi_from_i64 2)) = Some (bi_from_i64 (-4)). Proof. vm_compute. done. Qed.
Example ex_pow : rat_pow (Rat (bi_from_i64 (-3)) (bi_from_i64 2)) (-3) = Some (Some (Rat (bi_from_i64 (-8)) (bi_from_i64 27))) /\ rat_pow rat_zero (-1) = Some None. Proof. vm_compute. done. Qed.
Example ex_parse : rat_parse [32; 45; 54; 32; 47; 32; 56] = Some (Some (Rat (bi_from_i64 (-3)) (bi_from_i64 4))) /\ rat_parse [49; 47; 48] = Some None /\ rat_parse [49; 47; 50; 47; 51] = Some None. Proof. vm_compute. done. Qed.
Example ex_text : rat_text [32; 45; 54; 32; 47; 32; 56] (inject_Z (-6) / inject_Z 8).
Proof.
  pose proof (text_frac [32] [45; 54] [32] [32] [56] [] (-6) 8) as T. apply T; try (repeat constructor; fail); try done.
  - exists [45], [54]. repeat split; try done; [tauto|]. repeat constructor; unfold is_digit; lia.
  - exists [], [56]. repeat split; try done; [tauto|]. repeat constructor; unfold is_digit; lia.
Qed.
