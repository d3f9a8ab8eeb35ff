(* C107: analysis of Boolean functions *)
From Coq Require Import ZArith List Lia Bool Arith.
Import ListNotations.
From Verif Require Import BoolFnModel BoolFnProofs.
Open Scope Z_scope.

(* the value at x of the linear function with mask w, over n variables *)
Fixpoint dot (n w x : nat) : bool :=
  match n with O => false | S n => xorb (Nat.testbit w n && Nat.testbit x n) (dot n w x) end.
(* every variable of x is one of w *)
Fixpoint subset (n x w : nat) : bool :=
  match n with O => true | S n => implb (Nat.testbit x n) (Nat.testbit w n) && subset n x w end.
(* the number of variables of w *)
Fixpoint weight (n w : nat) : nat :=
  match n with O => 0 | S n => ((if Nat.testbit w n then 1 else 0) + weight n w)%nat end.

(* sums over 0 .. n-1, of integers and of bits *)
Notation total := (sum 0%Z Z.add).
Notation parity := (sum false xorb).
Definition sign (b : bool) : Z := if b then -1 else 1.
Definition at_ (truth : list bool) (x : nat) : bool := nth x truth false.
(* how many of the 2^n inputs satisfy p *)
Definition count (n : nat) (p : nat -> bool) : Z := total (2 ^ n) (fun x => if p x then 1 else 0).

Lemma kern_dot n w x : kern 1 Z.mul KZ n w x = sign (dot n w x).
Proof.
  induction n as [|n IH]; cbn [kern dot]; [reflexivity|]. rewrite IH. unfold KZ, sign.
  destruct (Nat.testbit w n && Nat.testbit x n), (dot n w x); reflexivity.
Qed.
Lemma kern_subset n w x : kern true andb KB n w x = subset n x w.
Proof.
  induction n as [|n IH]; cbn [kern subset]; [reflexivity|]. rewrite IH. unfold KB.
  destruct (Nat.testbit w n), (Nat.testbit x n); reflexivity.
Qed.
Lemma dot_sym n w x : dot n w x = dot n x w.
Proof. induction n as [|n IH]; cbn [dot]; [reflexivity|]. rewrite IH, andb_comm. reflexivity. Qed.

Lemma nth_ext_Z (l l' : list Z) : length l = length l' -> (forall k, (k < length l)%nat -> nth k l 0 = nth k l' 0) -> l = l'.
Proof. intros L E. apply nth_ext with 0 0; assumption. Qed.

(* The transform is the sum over all inputs with the sign of the linear function *)
Theorem C107_walsh_hadamard : forall n a, length a = (2 ^ n)%nat ->
  length (fast_walsh_hadamard a) = (2 ^ n)%nat
  /\ forall w, (w < 2 ^ n)%nat ->
     nth w (fast_walsh_hadamard a) 0 = total (2 ^ n) (fun x => sign (dot n w x) * nth x a 0).
Proof.
  intros n a La. destruct (fwh_spec n a La) as [L E]. split; [exact L|]. intros w Hw. rewrite E by exact Hw.
  apply sum_ext. intros x _. rewrite kern_dot. reflexivity.
Qed.

Lemma KZ_square b c : KZ b false * KZ false c + KZ b true * KZ true c = if Bool.eqb b c then 2 else 0.
Proof. destruct b, c; reflexivity. Qed.
Lemma KB_square b c : xorb (KB b false && KB false c) (KB b true && KB true c) = if Bool.eqb b c then true else false.
Proof. destruct b, c; reflexivity. Qed.
Lemma power_2 n : power 1 Z.mul 2 n = Z.of_nat (2 ^ n).
Proof. induction n as [|n IH]; cbn [power]; [reflexivity|]. rewrite IH. change (2 ^ S n)%nat with (2 * 2 ^ n)%nat. lia. Qed.
Lemma power_true n : power true andb true n = true.
Proof. induction n as [|n IH]; cbn [power]; [reflexivity|]. exact IH. Qed.

(* applied twice it multiplies by the length *)
Theorem C107_self_inverse : forall n a, length a = (2 ^ n)%nat ->
  fast_walsh_hadamard (fast_walsh_hadamard a) = map (Z.mul (Z.of_nat (2 ^ n))) a.
Proof.
  intros n a La. destruct (fwh_spec n a La) as [L E]. destruct (fwh_spec n _ L) as [L2 E2].
  apply nth_ext_Z; [rewrite map_length, L2, La; reflexivity|]. intros w Hw. rewrite L2 in Hw. rewrite E2 by exact Hw.
  rewrite (sum_ext 0 Z.add _ _ (fun x => kern 1 Z.mul KZ n w x * total (2 ^ n) (fun y => kern 1 Z.mul KZ n x y * nth y a 0))).
  2:{ intros x Hx. rewrite E by exact Hx. reflexivity. }
  rewrite (transform_inverse 0 1 Z.add Z.mul Z.sub Z.opp ZT KZ 2 KZ_square n (fun y => nth y a 0) w Hw).
  rewrite power_2. rewrite nth_indep with (d' := Z.of_nat (2 ^ n) * 0) (l := map _ _) by (rewrite map_length, La; exact Hw).
  rewrite (map_nth (Z.mul (Z.of_nat (2 ^ n)))). reflexivity.
Qed.

Lemma spectrum_some n truth : length truth = (2 ^ n)%nat ->
  walsh_spectrum truth = Some (fast_walsh_hadamard (map sign truth)).
Proof.
  intros L. unfold walsh_spectrum. rewrite L. destruct (is_power_of_two_pow n) as [-> _]. pose proof (pow2_pos n).
  destruct (Nat.eqb_spec (2 ^ n) 0); [lia|]. reflexivity.
Qed.
Lemma nth_sign truth x : (x < length truth)%nat -> nth x (map sign truth) 0 = sign (at_ truth x).
Proof.
  intros Hx. rewrite nth_indep with (d' := sign false) by (rewrite map_length; exact Hx). apply map_nth.
Qed.
Lemma spectrum_nth n truth w : length truth = (2 ^ n)%nat -> (w < 2 ^ n)%nat ->
  nth w (fast_walsh_hadamard (map sign truth)) 0 = total (2 ^ n) (fun x => sign (xorb (at_ truth x) (dot n w x))).
Proof.
  intros L Hw. destruct (C107_walsh_hadamard n (map sign truth)) as [_ E]; [rewrite map_length; exact L|].
  rewrite E by exact Hw. apply sum_ext. intros x Hx. rewrite nth_sign by lia.
  destruct (at_ truth x), (dot n w x); reflexivity.
Qed.

(* the number of inputs where the function differs from the affine function with
   mask w and constant c *)
Definition distance (n : nat) (truth : list bool) (w : nat) (c : bool) : Z :=
  count n (fun x => xorb (at_ truth x) (xorb (dot n w x) c)).

Lemma total_const m c : total m (fun _ => c) = Z.of_nat m * c.
Proof. induction m as [|m IH]; cbn [sum]; [reflexivity|]. rewrite IH. lia. Qed.
Lemma count_compl n p : count n (fun x => negb (p x)) = Z.of_nat (2 ^ n) - count n p.
Proof.
  unfold count. generalize (2 ^ n)%nat as m. induction m as [|m IH]; cbn [sum]; [reflexivity|].
  rewrite IH. destruct (p m); cbn [negb]; lia.
Qed.
Lemma sign_count n p : total (2 ^ n) (fun x => sign (p x)) = Z.of_nat (2 ^ n) - 2 * count n p.
Proof.
  unfold count. generalize (2 ^ n)%nat as m. induction m as [|m IH]; cbn [sum]; [reflexivity|].
  rewrite IH. unfold sign. destruct (p m); lia.
Qed.
Lemma count_range n p : 0 <= count n p <= Z.of_nat (2 ^ n).
Proof.
  unfold count. generalize (2 ^ n)%nat as m. induction m as [|m IH]; cbn [sum]; [lia|].
  destruct (p m); lia.
Qed.
Lemma count_ext n p q : (forall x, p x = q x) -> count n p = count n q.
Proof. intros E. apply sum_ext. intros x _. rewrite E. reflexivity. Qed.

Lemma distance_true n truth w : distance n truth w true = Z.of_nat (2 ^ n) - distance n truth w false.
Proof.
  unfold distance. rewrite <- count_compl. apply count_ext. intros x.
  destruct (at_ truth x), (dot n w x); reflexivity.
Qed.
Lemma spectrum_distance n truth w : length truth = (2 ^ n)%nat -> (w < 2 ^ n)%nat ->
  nth w (fast_walsh_hadamard (map sign truth)) 0 = Z.of_nat (2 ^ n) - 2 * distance n truth w false.
Proof.
  intros L Hw. rewrite (spectrum_nth n) by assumption. rewrite sign_count. unfold distance.
  rewrite (count_ext n (fun x => xorb (at_ truth x) (xorb (dot n w x) false)) (fun x => xorb (at_ truth x) (dot n w x))); [reflexivity|].
  intros x. rewrite xorb_false_r. reflexivity.
Qed.

(* The spectrum holds, for every mask, the agreements minus the disagreements with
   that linear function; the squares add up to 4^n; and exactly the tables whose
   length is a power of two have one *)
Theorem C107_spectrum : forall truth,
  (walsh_spectrum truth = None <-> ~ exists n, length truth = (2 ^ n)%nat)
  /\ forall n, length truth = (2 ^ n)%nat -> exists spec, walsh_spectrum truth = Some spec /\ length spec = (2 ^ n)%nat
     /\ (forall w, (w < 2 ^ n)%nat ->
          nth w spec 0 = count n (fun x => Bool.eqb (at_ truth x) (dot n w x))
                       - count n (fun x => negb (Bool.eqb (at_ truth x) (dot n w x))))
     /\ total (2 ^ n) (fun w => nth w spec 0 * nth w spec 0) = Z.of_nat (2 ^ n) * Z.of_nat (2 ^ n).
Proof.
  intros truth. split.
  - rewrite <- table_size. unfold walsh_spectrum.
    destruct ((length truth =? 0)%nat || negb (is_power_of_two (length truth))); split; congruence.
  - intros n L. exists (fast_walsh_hadamard (map sign truth)). split; [apply (spectrum_some n); exact L|].
    destruct (fwh_spec n (map sign truth)) as [L2 E2]; [rewrite map_length; exact L|].
    split; [exact L2|]. split.
    + intros w Hw. rewrite (spectrum_distance n) by assumption. rewrite count_compl. unfold distance.
      rewrite (count_ext n (fun x => Bool.eqb (at_ truth x) (dot n w x)) (fun x => negb (xorb (at_ truth x) (xorb (dot n w x) false)))).
      2:{ intros x. destruct (at_ truth x), (dot n w x); reflexivity. }
      rewrite count_compl. lia.
    + (* Σ_w W(w)^2 = Σ_w W(w) Σ_x s(w,x) F(x) = Σ_x F(x) (W W F)(x) *)
      set (W := fast_walsh_hadamard (map sign truth)) in *.
      rewrite (sum_ext 0 Z.add _ _ (fun w => total (2 ^ n) (fun x => nth w W 0 * (kern 1 Z.mul KZ n w x * nth x (map sign truth) 0)))).
      2:{ intros w Hw. rewrite <- (sum_mul 0 1 Z.add Z.mul Z.sub Z.opp ZT). rewrite <- E2 by exact Hw. reflexivity. }
      rewrite (sum_swap 0 1 Z.add Z.mul Z.sub Z.opp ZT).
      destruct (fwh_spec n W L2) as [L3 E3].
      rewrite (sum_ext 0 Z.add _ _ (fun x => Z.of_nat (2 ^ n))).
      2:{ intros x Hx.
          rewrite (sum_ext 0 Z.add _ _ (fun w => nth x (map sign truth) 0 * (kern 1 Z.mul KZ n x w * nth w W 0))).
          2:{ intros w _. rewrite !kern_dot, dot_sym. ring. }
          rewrite <- (sum_mul 0 1 Z.add Z.mul Z.sub Z.opp ZT). rewrite <- E3 by exact Hx.
          unfold W. rewrite (C107_self_inverse n) by (rewrite map_length; exact L).
          rewrite (nth_indep (map (Z.mul (Z.of_nat (2 ^ n))) (map sign truth)) 0 (Z.of_nat (2 ^ n) * 0)) by (rewrite !map_length; lia).
          rewrite (map_nth (Z.mul (Z.of_nat (2 ^ n)))). rewrite nth_sign by lia. unfold sign. destruct (at_ truth x); lia. }
      apply total_const.
Qed.

Lemma max_by_key_spec {A} (key : A -> Z) l : forall best r, max_by_key key best l = Some r ->
  (In r l \/ best = Some r) /\ (forall x, In x l \/ best = Some x -> key x <= key r).
Proof.
  induction l as [|x l IH]; intros best r E; cbn [max_by_key] in E.
  - subst best. split; [right; reflexivity|]. intros x [[]|Ex]. injection Ex as ->. lia.
  - apply IH in E as [E1 E2]. destruct best as [b|].
    + destruct (Z.leb_spec (key b) (key x)) as [Hle|Hlt]; (split; [destruct E1 as [E1|E1]; [left; right; exact E1|]|]).
      * injection E1 as <-. left; left; reflexivity.
      * intros y [[<-|Hy]|Hy]; [apply E2; right; reflexivity|apply E2; left; exact Hy|].
        injection Hy as <-. specialize (E2 x (or_intror eq_refl)). lia.
      * injection E1 as <-. right; reflexivity.
      * intros y [[<-|Hy]|Hy]; [|apply E2; left; exact Hy|apply E2; right; exact Hy].
        specialize (E2 b (or_intror eq_refl)). lia.
    + split.
      * destruct E1 as [E1|E1]; [left; right; exact E1|]. injection E1 as <-. left; left; reflexivity.
      * intros y [[<-|Hy]|Hy]; [apply E2; right; reflexivity|apply E2; left; exact Hy|discriminate].
Qed.
Lemma max_by_key_some {A} (key : A -> Z) l : forall best, best <> None \/ l <> [] -> exists r, max_by_key key best l = Some r.
Proof.
  induction l as [|x l IH]; intros best Hb; cbn [max_by_key].
  - destruct best as [b|]; [eauto|]. destruct Hb; congruence.
  - apply IH. left. destruct best as [b|]; [destruct (key b <=? key x)|]; discriminate.
Qed.

(* the nonlinearity is the distance to the nearest affine function *)
Theorem C107_nonlinearity : forall n truth, length truth = (2 ^ n)%nat ->
  exists m, nonlinearity truth = Some m
  /\ (exists w c, (w < 2 ^ n)%nat /\ distance n truth w c = m)
  /\ (forall w c, (w < 2 ^ n)%nat -> m <= distance n truth w c).
Proof.
  intros n truth L. unfold nonlinearity. rewrite (spectrum_some n) by exact L.
  destruct (fwh_spec n (map sign truth)) as [L2 _]; [rewrite map_length; exact L|].
  set (W := fast_walsh_hadamard (map sign truth)) in *. pose proof (pow2_pos n) as P.
  destruct (max_by_key_some (fun x => x) (map Z.abs W) None) as [m Em].
  { right. intros E. apply (f_equal (@length Z)) in E. rewrite map_length, L2 in E. cbn in E. lia. }
  rewrite Em. apply max_by_key_spec in Em as [[Em1|Em1] Em2]; [|discriminate].
  apply in_map_iff in Em1 as (c & <- & Hc). apply (In_nth _ _ 0) in Hc as (w & Hw & Ew). rewrite L2 in Hw.
  exists (Z.of_nat (length truth) / 2 - Z.abs c / 2). split; [reflexivity|]. rewrite L.
  assert (ED : c = Z.of_nat (2 ^ n) - 2 * distance n truth w false).
  { rewrite <- Ew. apply (spectrum_distance n); assumption. }
  split.
  - destruct (Z_le_gt_dec 0 c) as [Hc|Hc].
    + exists w, false. split; [exact Hw|]. rewrite Z.abs_eq by exact Hc.
      set (d := distance n truth w false) in *. clear - ED Hc. Z.to_euclidean_division_equations; lia.
    + exists w, true. split; [exact Hw|]. rewrite distance_true. rewrite Z.abs_neq by lia.
      set (d := distance n truth w false) in *. clear - ED Hc. Z.to_euclidean_division_equations; lia.
  - intros w' c' Hw'.
    assert (Hm : Z.abs (nth w' W 0) <= Z.abs c).
    { apply Em2. left. apply in_map. apply nth_In. rewrite L2. exact Hw'. }
    unfold W in Hm. rewrite (spectrum_distance n) in Hm by assumption.
    pose proof (count_range n (fun x => xorb (at_ truth x) (xorb (dot n w' x) false))) as R. fold (distance n truth w' false) in R.
    destruct c'; [rewrite distance_true|]; set (d := distance n truth w false) in *; set (d' := distance n truth w' false) in *; clear - ED Hm R; Z.to_euclidean_division_equations; lia.
Qed.

(* the best linear approximation is a mask with the largest coefficient, which is
   returned with its absolute value over 2^(n+1); there is none only for the
   one-entry table without its constant mask *)
Theorem C107_best : forall n truth skip, length truth = (2 ^ n)%nat ->
  (best_linear_approximation truth skip = None <-> skip = true /\ n = 0%nat)
  /\ forall w num den, best_linear_approximation truth skip = Some (w, (num, den)) ->
     (w < 2 ^ n)%nat /\ (skip = true -> w <> 0%nat) /\ den = 2 * Z.of_nat (2 ^ n)
     /\ num = Z.abs (Z.of_nat (2 ^ n) - 2 * distance n truth w false)
     /\ forall w', (w' < 2 ^ n)%nat -> (skip = true -> w' <> 0%nat) ->
          Z.abs (Z.of_nat (2 ^ n) - 2 * distance n truth w' false) <= num.
Proof.
  intros n truth skip L. unfold best_linear_approximation. rewrite (spectrum_some n) by exact L.
  destruct (fwh_spec n (map sign truth)) as [L2 _]; [rewrite map_length; exact L|].
  assert (SD := fun w => spectrum_distance n truth w L).
  set (W := fast_walsh_hadamard (map sign truth)) in *. pose proof (pow2_pos n) as P.
  set (pairs := combine (seq 0 (length W)) W).
  assert (Lp : length pairs = (2 ^ n)%nat) by (unfold pairs; rewrite combine_length, seq_length, L2; lia).
  set (k := (if skip then 1 else 0)%nat).
  assert (NP : forall i, (i < 2 ^ n)%nat -> nth i pairs (0%nat, 0) = (i, nth i W 0)).
  { intros i Hi. unfold pairs. rewrite combine_nth by (rewrite seq_length; reflexivity). rewrite seq_nth by lia. reflexivity. }
  assert (NS : forall i, nth i (skipn k pairs) (0%nat, 0) = nth (k + i) pairs (0%nat, 0)).
  { intros i. rewrite <- (firstn_skipn k pairs) at 2. destruct (Nat.le_ge_cases k (length pairs)) as [Hk|Hk].
    - rewrite app_nth2; rewrite firstn_length, Nat.min_l by exact Hk; [|lia]. f_equal. lia.
    - rewrite skipn_all2 by exact Hk. rewrite app_nil_r. rewrite firstn_all2 by exact Hk.
      rewrite (nth_overflow pairs) by lia. destruct i; reflexivity. }
  assert (IP : forall i c, In (i, c) (skipn k pairs) <-> ((k <= i < 2 ^ n)%nat /\ c = nth i W 0)).
  { intros i c. split.
    - intros H. apply (In_nth _ _ (0%nat, 0)) in H as (j & Hj & Ej). rewrite skipn_length, Lp in Hj.
      rewrite NS, NP in Ej by lia. injection Ej as <- <-. split; [lia|reflexivity].
    - intros [Hi ->]. rewrite <- NP by lia. replace i with (k + (i - k))%nat at 1 by lia. rewrite <- NS.
      apply nth_In. rewrite skipn_length, Lp. lia. }
  rewrite L. split.
  - destruct (skipn k pairs) as [|p0 l0] eqn:Ep.
    + cbn [max_by_key option_map]. split; [|reflexivity]. intros _.
      apply (f_equal (@length _)) in Ep. rewrite skipn_length, Lp in Ep. cbn [length] in Ep.
      destruct skip; [split; [reflexivity|]|unfold k in Ep; lia]. unfold k in Ep.
      destruct n as [|n]; [reflexivity|]. cbn [Nat.pow] in Ep. pose proof (pow2_pos n). lia.
    + destruct (max_by_key_some (fun '(_, c) => Z.abs c) (p0 :: l0) (None : option (nat * Z))) as [r Er]; [right; discriminate|].
      rewrite Er. cbn [option_map]. destruct r. split; [discriminate|]. intros [-> ->]. exfalso.
      apply (f_equal (@length _)) in Ep. rewrite skipn_length, Lp in Ep. unfold k in Ep. cbn in Ep. lia.
  - intros w num den E.
    destruct (max_by_key (fun '(_, c) => Z.abs c) None (skipn k pairs)) as [[w0 c0]|] eqn:Em; [|discriminate].
    cbn [option_map] in E. injection E as <- <- <-.
    apply max_by_key_spec in Em as [[Em1|Em1] Em2]; [|discriminate].
    apply IP in Em1 as [Hr ->].
    repeat split; [lia| |rewrite SD by lia; reflexivity|].
    + intros ->. unfold k in Hr. lia.
    + intros w' Hw' Hs. rewrite <- SD by exact Hw'.
      apply (Em2 (w', nth w' W 0)). left. apply IP. split; [|reflexivity].
      split; [|exact Hw']. unfold k. destruct skip; [|lia]. specialize (Hs eq_refl). lia.
Qed.

(* the count of one bits *)
Lemma ones_weight n : forall f w, (w < 2 ^ n)%nat -> (n <= f)%nat -> ones f w = weight n w.
Proof.
  assert (WS : forall m w, weight (S m) w = (w mod 2 + weight m (w / 2))%nat).
  { induction m as [|m IH]; intros w.
    - cbn [weight]. rewrite <- Nat.bit0_mod. destruct (Nat.testbit w 0); reflexivity.
    - change (weight (S (S m)) w) with ((if Nat.testbit w (S m) then 1 else 0) + weight (S m) w)%nat.
      rewrite IH. cbn [weight]. replace (Nat.testbit (w / 2) m) with (Nat.testbit w (S m)); [lia|].
      pose proof (Nat.div_pow2_bits w 1 m) as D. rewrite Nat.pow_1_r, Nat.add_1_r in D. symmetry. exact D. }
  induction n as [|n IH]; intros f w Hw Hf.
  - cbn in Hw. assert (w = 0%nat) as -> by lia. clear. induction f as [|f IH]; [reflexivity|]. cbn [ones]. exact IH.
  - destruct f as [|f]; [lia|]. cbn [ones]. rewrite WS. f_equal. apply IH; [|lia].
    apply Nat.div_lt_upper_bound; [lia|]. exact Hw.
Qed.

Lemma immune_loop_spec spec n k : forall m0, (m0 + k = n)%nat ->
  let r := immune_loop spec n (seq (S m0) k) in
  (m0 <= r <= n)%nat /\ (forall m, (m0 < m <= r)%nat -> vanishes spec m = true)
  /\ (r = n \/ vanishes spec (S r) = false).
Proof.
  induction k as [|k IH]; intros m0 E r; subst r; cbn [seq immune_loop].
  - split; [lia|]. split; [intros; lia|left; reflexivity].
  - destruct (vanishes spec (S m0)) eqn:Ev; cbn [negb].
    + destruct (IH (S m0) ltac:(lia)) as (B & V & N). split; [lia|]. split; [|exact N].
      intros m Hm. destruct (Nat.eq_dec m (S m0)) as [->|]; [exact Ev|]. apply V. lia.
    + rewrite Nat.sub_succ, Nat.sub_0_r. split; [lia|]. split; [intros; lia|right; exact Ev].
Qed.

(* The immunity order is the largest m such that the function is balanced against
   every linear function of one to m variables *)
Theorem C107_immunity : forall n truth, length truth = (2 ^ n)%nat -> (n <= 64)%nat ->
  exists m, correlation_immunity_order truth = Some m /\ (m <= n)%nat
  /\ (forall w, (w < 2 ^ n)%nat -> (1 <= weight n w <= m)%nat -> 2 * distance n truth w false = Z.of_nat (2 ^ n))
  /\ (m = n \/ exists w, (w < 2 ^ n)%nat /\ weight n w = S m /\ 2 * distance n truth w false <> Z.of_nat (2 ^ n)).
Proof.
  intros n truth L Hn. unfold correlation_immunity_order. rewrite (spectrum_some n) by exact L. rewrite L.
  destruct (is_power_of_two_pow n) as [_ ->].
  destruct (fwh_spec n (map sign truth)) as [L2 _]; [rewrite map_length; exact L|].
  assert (SD := fun w => spectrum_distance n truth w L).
  set (W := fast_walsh_hadamard (map sign truth)) in *.
  assert (V : forall m, vanishes W m = true <-> forall w, (w < 2 ^ n)%nat -> weight n w = m -> nth w W 0 = 0).
  { intros m. unfold vanishes. rewrite forallb_forall. split.
    - intros F w Hw Hm. specialize (F (w, nth w W 0)). apply Z.eqb_eq, F. apply filter_In. split.
      + replace (w, nth w W 0) with (nth w (combine (seq 0 (length W)) W) (0%nat, 0)).
        * apply nth_In. rewrite combine_length, seq_length, L2. lia.
        * rewrite combine_nth by apply seq_length. rewrite seq_nth by lia. reflexivity.
      + apply Nat.eqb_eq. unfold count_ones. rewrite (ones_weight n) by assumption. exact Hm.
    - intros F [w c] Hi. apply filter_In in Hi as [Hi Hm]. apply Nat.eqb_eq in Hm.
      apply (In_nth _ _ (0%nat, 0)) in Hi as (j & Hj & Ej). rewrite combine_length, seq_length, L2 in Hj.
      rewrite combine_nth in Ej by apply seq_length. rewrite seq_nth in Ej by lia. injection Ej as <- <-.
      cbn [Nat.add] in *. apply Z.eqb_eq, F; [lia|]. unfold count_ones in Hm. rewrite (ones_weight n) in Hm by lia. exact Hm. }
  exists (immune_loop W n (seq 1 n)). destruct (immune_loop_spec W n n 0 eq_refl) as (B & VV & N).
  split; [reflexivity|]. split; [lia|]. split.
  - intros w Hw Hm. specialize (VV (weight n w) ltac:(lia)). rewrite V in VV. specialize (VV w Hw eq_refl).
    rewrite SD in VV by exact Hw. lia.
  - destruct N as [N|N]; [left; exact N|right].
    (* some mask of that weight does not vanish *)
    assert (NE : ~ forall w, (w < 2 ^ n)%nat -> weight n w = S (immune_loop W n (seq 1 n)) -> nth w W 0 = 0).
    { intros F. apply V in F. congruence. }
    assert (DE : forall b, (exists w, (w < b)%nat /\ weight n w = S (immune_loop W n (seq 1 n)) /\ nth w W 0 <> 0)
       \/ (forall w, (w < b)%nat -> weight n w = S (immune_loop W n (seq 1 n)) -> nth w W 0 = 0)).
    { induction b as [|b [(w & H1 & H2 & H3)|F]]; [right; intros; lia|left; exists w; repeat split; auto; lia|].
      destruct (Nat.eq_dec (weight n b) (S (immune_loop W n (seq 1 n)))) as [E1|E1].
      - destruct (Z.eq_dec (nth b W 0) 0) as [E2|E2].
        + right. intros w Hw Hm. destruct (Nat.eq_dec w b) as [->|]; [exact E2|]. apply F; [lia|exact Hm].
        + left. exists b. repeat split; auto.
      - right. intros w Hw Hm. destruct (Nat.eq_dec w b) as [->|]; [contradiction|]. apply F; [lia|exact Hm]. }
    destruct (DE (2 ^ n)%nat) as [(w & H1 & H2 & H3)|F]; [|contradiction].
    exists w. repeat split; auto. rewrite SD in H3 by exact H1. lia.
Qed.

(* The normal form: the function at x is the sum of the monomials whose variables
   are all set in x; the coefficients are unique; the transform undoes itself *)
Theorem C107_anf : forall n truth, length truth = (2 ^ n)%nat ->
  exists a, anf truth = Some a /\ length a = (2 ^ n)%nat
  /\ (forall x, (x < 2 ^ n)%nat -> at_ truth x = parity (2 ^ n) (fun s => subset n s x && at_ a s))
  /\ (forall b, length b = (2 ^ n)%nat ->
        (forall x, (x < 2 ^ n)%nat -> at_ truth x = parity (2 ^ n) (fun s => subset n s x && at_ b s)) -> b = a)
  /\ anf a = Some truth.
Proof.
  intros n truth L. destruct (anf_spec n truth L) as (a & E & La & Na).
  destruct (anf_spec n a La) as (t & Et & Lt & Nt).
  assert (ET : t = truth).
  { apply nth_ext with false false; [congruence|]. intros w Hw. rewrite Lt in Hw. rewrite Nt by exact Hw.
    rewrite (sum_ext false xorb _ _ (fun x => kern true andb KB n w x && parity (2 ^ n) (fun y => kern true andb KB n x y && nth y truth false))).
    2:{ intros x Hx. rewrite Na by exact Hx. reflexivity. }
    rewrite (transform_inverse false true xorb andb xorb (fun b => b) BT KB true KB_square n (fun y => nth y truth false) w Hw).
    rewrite power_true. reflexivity. }
  subst t. exists a. split; [exact E|]. split; [exact La|]. split; [|split; [|exact Et]].
  - intros x Hx. unfold at_. rewrite Nt by exact Hx. apply sum_ext. intros s _. rewrite kern_subset. reflexivity.
  - intros b Lb Eb. destruct (anf_spec n b Lb) as (t & Etb & Ltb & Ntb).
    (* truth is the transform of b, so its transform is b *)
    assert (ETb : truth = t).
    { apply nth_ext with false false; [congruence|]. intros w Hw. rewrite L in Hw. rewrite Ntb by exact Hw.
      rewrite (Eb w Hw : nth w truth false = _). apply sum_ext. intros s _. rewrite kern_subset. reflexivity. }
    apply nth_ext with false false; [congruence|]. intros w Hw. rewrite Lb in Hw. rewrite Na by exact Hw.
    rewrite (sum_ext false xorb _ _ (fun x => kern true andb KB n w x && parity (2 ^ n) (fun y => kern true andb KB n x y && nth y b false))).
    2:{ intros x Hx. rewrite ETb. rewrite Ntb by exact Hx. reflexivity. }
    rewrite (transform_inverse false true xorb andb xorb (fun b => b) BT KB true KB_square n (fun y => nth y b false) w Hw).
    rewrite power_true. reflexivity.
Qed.

Lemma fold_max l : forall m, (m <= fold_left Nat.max l m)%nat /\ (forall x, In x l -> (x <= fold_left Nat.max l m)%nat)
  /\ (fold_left Nat.max l m = m \/ In (fold_left Nat.max l m) l).
Proof.
  induction l as [|x l IH]; intros m; cbn [fold_left]; [repeat split; auto; intros ? []|].
  destruct (IH (Nat.max m x)) as (A & B & C). split; [lia|]. split.
  - intros y [->|Hy]; [lia|auto].
  - destruct C as [C|C]; [|right; right; exact C].
    destruct (Nat.max_spec m x) as [[_ E]|[_ E]]; rewrite E in *; [right; left; congruence|left; exact C].
Qed.

(* the algebraic degree is the largest number of variables of a monomial *)
Theorem C107_degree : forall n truth a, length truth = (2 ^ n)%nat -> (n <= 64)%nat -> anf truth = Some a ->
  exists d, algebraic_degree truth = Some d
  /\ (forall s, (s < 2 ^ n)%nat -> at_ a s = true -> (weight n s <= d)%nat)
  /\ ((exists s, (s < 2 ^ n)%nat /\ at_ a s = true /\ weight n s = d) \/ (d = 0%nat /\ forall s, (s < 2 ^ n)%nat -> at_ a s = false)).
Proof.
  intros n truth a L Hn E. destruct (anf_spec n truth L) as (a' & E' & La & _). assert (a' = a) as -> by congruence. clear E'.
  unfold algebraic_degree. rewrite E. eexists. split; [reflexivity|].
  set (l := map _ _). destruct (fold_max l 0) as (_ & B & C).
  assert (IL : forall s, (s < 2 ^ n)%nat -> at_ a s = true -> In (weight n s) l).
  { intros s Hs Es. unfold l. apply in_map_iff. exists (s, true).
    split; [unfold count_ones; apply ones_weight; assumption|]. apply filter_In. split; [|reflexivity].
    replace (s, true) with (nth s (combine (seq 0 (length a)) a) (0%nat, false)).
    - apply nth_In. rewrite combine_length, seq_length, La. lia.
    - rewrite combine_nth by apply seq_length. rewrite seq_nth by lia. unfold at_ in Es. rewrite Es. reflexivity. }
  assert (LI : forall m, In m l -> exists s, (s < 2 ^ n)%nat /\ at_ a s = true /\ weight n s = m).
  { intros m Hm. unfold l in Hm. apply in_map_iff in Hm as ([s c] & Em & Hi). apply filter_In in Hi as [Hi Hc]. subst c.
    apply (In_nth _ _ (0%nat, false)) in Hi as (j & Hj & Ej). rewrite combine_length, seq_length, La in Hj.
    rewrite combine_nth in Ej by apply seq_length. rewrite seq_nth in Ej by lia. injection Ej as <- Ec.
    cbn [Nat.add] in Em. exists j. split; [lia|]. split; [exact Ec|]. rewrite <- Em. unfold count_ones. symmetry. apply ones_weight; lia. }
  split; [intros s Hs Es; apply B, IL; assumption|].
  clearbody l. destruct l as [|m l].
  - right. split; [reflexivity|]. intros s Hs. destruct (at_ a s) eqn:Es; [|reflexivity]. destruct (IL s Hs Es).
  - left. apply LI. destruct C as [C|C]; [|exact C].
    rewrite C. specialize (B m (or_introl eq_refl)). rewrite C in B. assert (m = 0%nat) as -> by lia. left; reflexivity.
Qed.

Lemma dot_xor n w x y : dot n w (Nat.lxor x y) = xorb (dot n w x) (dot n w y).
Proof.
  induction n as [|n IH]; cbn [dot]; [reflexivity|]. rewrite IH, Nat.lxor_spec.
  destruct (Nat.testbit w n), (Nat.testbit x n), (Nat.testbit y n), (dot n w x), (dot n w y); reflexivity.
Qed.
Lemma lxor_bound n x y : (x < 2 ^ n)%nat -> (y < 2 ^ n)%nat -> (Nat.lxor x y < 2 ^ n)%nat.
Proof.
  intros Hx Hy. pose proof (pow2_pos n).
  assert (E : (Nat.lxor x y / 2 ^ n = 0)%nat).
  { apply Nat.bits_inj. intros i. rewrite Nat.div_pow2_bits, Nat.lxor_spec, Nat.bits_0.
    assert (2 ^ n <= 2 ^ (i + n))%nat by (apply Nat.pow_le_mono_r; lia). rewrite !testbit_small by lia. reflexivity. }
  apply Nat.div_small_iff; [lia|exact E].
Qed.

(* The autocorrelation at a is the sum of the signs of f(x) + f(x + a); the
   division by the length is exact *)
Theorem C107_autocorrelation : forall n truth, length truth = (2 ^ n)%nat ->
  exists r, autocorrelation truth = Some r /\ length r = (2 ^ n)%nat
  /\ forall a, (a < 2 ^ n)%nat ->
     nth a r 0 = total (2 ^ n) (fun x => sign (xorb (at_ truth x) (at_ truth (Nat.lxor x a)))).
Proof.
  intros n truth L. unfold autocorrelation. rewrite (spectrum_some n) by exact L.
  assert (EW := fun w => spectrum_nth n truth w L).
  destruct (fwh_spec n (map sign truth)) as [LW _]; [rewrite map_length; exact L|].
  set (W := fast_walsh_hadamard (map sign truth)) in *.
  destruct (C107_walsh_hadamard n (map (fun c => c * c) W)) as [LR ER]; [rewrite map_length; exact LW|].
  eexists. split; [reflexivity|]. split; [rewrite map_length; exact LR|]. intros a Ha.
  pose proof (pow2_pos n) as P.
  rewrite nth_indep with (d' := Z.quot 0 (Z.of_nat (length truth))) by (rewrite map_length, LR; exact Ha).
  rewrite (map_nth (fun c => Z.quot c (Z.of_nat (length truth)))). rewrite ER by exact Ha. rewrite L.
  set (F := fun x => sign (at_ truth x)).
  set (target := total (2 ^ n) (fun x => sign (xorb (at_ truth x) (at_ truth (Nat.lxor x a))))).
  match goal with |- Z.quot ?s _ = _ => replace s with (target * Z.of_nat (2 ^ n)) end.
  { apply Z.quot_mul. lia. }
  rewrite Z.mul_comm.
  (* expand the square *)
  rewrite (sum_ext 0 Z.add _ (fun x => sign (dot n a x) * nth x (map (fun c => c * c) W) 0)
    (fun w => total (2 ^ n) (fun x => total (2 ^ n) (fun y => F x * F y * (sign (dot n a w) * sign (dot n w (Nat.lxor x y))))))).
  2:{ intros w Hw. rewrite nth_indep with (d' := 0 * 0) by (rewrite map_length, LW; exact Hw).
      rewrite (map_nth (fun c => c * c)). rewrite EW by exact Hw.
      rewrite (sum_ext 0 Z.add _ (fun x => sign (xorb (at_ truth x) (dot n w x))) (fun x => F x * sign (dot n w x))).
      2:{ intros x _. unfold F. destruct (at_ truth x), (dot n w x); reflexivity. }
      set (S1 := total (2 ^ n) (fun x => F x * sign (dot n w x))).
      rewrite (sum_ext 0 Z.add _ _ (fun x => (sign (dot n a w) * S1) * (F x * sign (dot n w x)))).
      2:{ intros x _. unfold S1.
          rewrite (sum_ext 0 Z.add _ _ (fun y => (F x * sign (dot n a w) * sign (dot n w x)) * (F y * sign (dot n w y)))).
          2:{ intros y _. rewrite dot_xor. destruct (dot n w x), (dot n w y); unfold sign; cbn [xorb]; ring. }
          rewrite <- (sum_mul 0 1 Z.add Z.mul Z.sub Z.opp ZT). ring. }
      rewrite <- (sum_mul 0 1 Z.add Z.mul Z.sub Z.opp ZT). fold S1. ring. }
  rewrite (sum_swap 0 1 Z.add Z.mul Z.sub Z.opp ZT). unfold target.
  rewrite (sum_mul 0 1 Z.add Z.mul Z.sub Z.opp ZT). apply sum_ext. intros x Hx.
  rewrite (sum_swap 0 1 Z.add Z.mul Z.sub Z.opp ZT).
  rewrite (sum_ext 0 Z.add _ _ (fun y => F x * F y * (if (a =? Nat.lxor x y)%nat then Z.of_nat (2 ^ n) else 0))).
  2:{ intros y Hy. rewrite <- (sum_mul 0 1 Z.add Z.mul Z.sub Z.opp ZT). f_equal.
      rewrite (sum_ext 0 Z.add _ _ (fun w => kern 1 Z.mul KZ n a w * kern 1 Z.mul KZ n w (Nat.lxor x y)))
        by (intros; rewrite !kern_dot; reflexivity).
      rewrite (kern_square 0 1 Z.add Z.mul Z.sub Z.opp ZT KZ 2 KZ_square).
      rewrite eqlow_eq by (try apply lxor_bound; assumption). rewrite power_2. reflexivity. }
  rewrite (sum_single 0 1 Z.add Z.mul Z.sub Z.opp ZT _ (Nat.lxor x a)).
  - replace (Nat.lxor x (Nat.lxor x a)) with a by (rewrite <- Nat.lxor_assoc, Nat.lxor_nilpotent, Nat.lxor_0_l; reflexivity).
    rewrite Nat.eqb_refl. unfold F. destruct (at_ truth x), (at_ truth (Nat.lxor x a)); unfold sign; cbn [xorb]; lia.
  - apply lxor_bound; assumption.
  - intros y Hy N. destruct (Nat.eqb_spec a (Nat.lxor x y)) as [E|E]; [|ring]. exfalso. apply N. rewrite E.
    rewrite <- Nat.lxor_assoc, Nat.lxor_nilpotent, Nat.lxor_0_l. reflexivity.
Qed.

(* the majority of three variables, and a bent function of four *)
Definition maj3 : list bool := [false; false; false; true; false; true; true; true].
Definition bent4 : list bool :=
  [false; false; false; true; false; false; false; true; false; false; false; true; true; true; true; false].
Example C107_ex :
  walsh_spectrum maj3 = Some [0; 4; 4; 0; 4; 0; 0; -4]
  /\ nonlinearity maj3 = Some 2 /\ correlation_immunity_order maj3 = Some 0%nat
  /\ anf maj3 = Some [false; false; false; true; false; true; true; false] /\ algebraic_degree maj3 = Some 2%nat
  /\ best_linear_approximation maj3 true = Some (7%nat, (4, 16))
  /\ autocorrelation maj3 = Some [8; 0; 0; 0; 0; 0; 0; -8]
  /\ nonlinearity bent4 = Some 6 /\ autocorrelation bent4 = Some (16 :: repeat 0 15)
  /\ walsh_spectrum [true; false; true] = None
  /\ length maj3 = (2 ^ 3)%nat /\ length bent4 = (2 ^ 4)%nat
  /\ correlation_immunity_order [false; true; true; false] = Some 1%nat.
Proof. repeat split; vm_compute; reflexivity. Qed.
