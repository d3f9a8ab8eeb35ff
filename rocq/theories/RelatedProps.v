(** C119: the related-message attack and the polynomial division under it. *)
From Coq Require Import List ZArith Bool Lia Znumtheory.
From Verif Require Import FactorModel FactorProofs RelatedModel.
Import ListNotations.
Local Open Scope Z_scope.

(** The value of a polynomial (coefficients low to high). *)
Fixpoint eval (p : list Z) (x : Z) : Z := match p with [] => 0 | c :: p => c + x * eval p x end.

Lemma eval_app p q x : eval (p ++ q) x = eval p x + x ^ Z.of_nat (length p) * eval q x.
Proof.
  induction p as [|c p IH]; [cbn [app eval length]; rewrite Z.pow_0_r; lia|]. cbn [app eval length]. rewrite IH, Nat2Z.inj_succ, Z.pow_succ_r by lia. ring.
Qed.
Lemma eval_repeat k x : eval (repeat 0 k) x = 0.
Proof. induction k; cbn; [reflexivity|]. rewrite IHk. lia. Qed.
Lemma pop_eval x : forall rv, eval (rev (pop_zeros rv)) x = eval (rev rv) x.
Proof.
  induction rv as [|c rv IH]; [reflexivity|]. destruct rv as [|c' rv]; [reflexivity|]. change (pop_zeros (c :: c' :: rv)) with (if c =? 0 then pop_zeros (c' :: rv) else c :: c' :: rv). destruct (Z.eqb_spec c 0) as [->|]; [|reflexivity].
  rewrite IH. change (rev (0 :: c' :: rv)) with (rev (c' :: rv) ++ [0]). rewrite eval_app. cbn [eval]. lia.
Qed.
Lemma pop_len : forall rv, (length (pop_zeros rv) <= length rv)%nat.
Proof.
  induction rv as [|c rv IH]; [apply le_n|]. destruct rv as [|c' rv]; [apply le_n|]. change (pop_zeros (c :: c' :: rv)) with (if c =? 0 then pop_zeros (c' :: rv) else c :: c' :: rv). destruct (c =? 0); [|apply le_n]. etransitivity; [exact IH|]. cbn; lia.
Qed.
Lemma pop_in : forall rv y, In y (pop_zeros rv) -> In y rv.
Proof.
  induction rv as [|c rv IH]; [easy|]. destruct rv as [|c' rv]; [easy|]. intros y. change (pop_zeros (c :: c' :: rv)) with (if c =? 0 then pop_zeros (c' :: rv) else c :: c' :: rv). destruct (c =? 0); [|easy]. intros H. right. now apply IH.
Qed.
Lemma set_nth_len : forall l k v, length (set_nth l k v) = length l.
Proof. induction l as [|y l IH]; intros [|k] v; cbn; auto. Qed.
Lemma set_nth_eval x : forall l k v, (k < length l)%nat -> eval (set_nth l k v) x = eval l x + (v - nth k l 0) * x ^ Z.of_nat k.
Proof.
  induction l as [|y l IH]; intros k v Hk; [cbn in Hk; lia|]. destruct k as [|k]; cbn [set_nth eval nth].
  - rewrite Z.pow_0_r. ring.
  - rewrite IH by (cbn in Hk; lia). rewrite Nat2Z.inj_succ, Z.pow_succ_r by lia. ring.
Qed.

Section mod_n.
Variable n : Z.
Hypothesis Hn : 1 < n.
Definition cg (a b : Z) : Prop := (n | a - b).
Lemma cg_refl a : cg a a. Proof. exists 0. lia. Qed.
Lemma cg_sym a b : cg a b -> cg b a. Proof. intros [k H]. exists (- k). lia. Qed.
Lemma cg_trans a b c : cg a b -> cg b c -> cg a c. Proof. intros [k H] [k' H']. exists (k + k'). lia. Qed.
Lemma cg_add a b c d : cg a b -> cg c d -> cg (a + c) (b + d). Proof. intros [k H] [k' H']. exists (k + k'). lia. Qed.
Lemma cg_sub a b c d : cg a b -> cg c d -> cg (a - c) (b - d). Proof. intros [k H] [k' H']. exists (k - k'). lia. Qed.
Lemma cg_mul a b c d : cg a b -> cg c d -> cg (a * c) (b * d).
Proof. intros [k H] [k' H']. exists (k * c + b * k'). replace (a * c - b * d) with ((a - b) * c + b * (c - d)) by ring. rewrite H, H'. ring. Qed.
Lemma cg_pow a b k : cg a b -> cg (a ^ Z.of_nat k) (b ^ Z.of_nat k).
Proof. intros H. induction k as [|k IH]; [apply cg_refl|]. rewrite Nat2Z.inj_succ, !Z.pow_succ_r by lia. now apply cg_mul. Qed.
Lemma cg_rem a : cg (pos_rem a n) a.
Proof. rewrite pos_rem_spec by lia. apply cg_sym, mod_sub_divide. lia. Qed.
Lemma pos_rem_range a : 0 <= pos_rem a n < n.
Proof. rewrite pos_rem_spec by lia. apply Z.mod_pos_bound. lia. Qed.
Lemma cg_0 a : cg a 0 <-> (n | a).
Proof. unfold cg. now rewrite Z.sub_0_r. Qed.
Definition ranged (p : list Z) : Prop := Forall (fun c => 0 <= c < n) p.

Lemma norm_eval p x : cg (eval (poly_norm_mod p n) x) (eval p x).
Proof.
  assert (G : cg (eval (rev (pop_zeros (rev (map (fun c => pos_rem c n) p)))) x) (eval p x)).
  { rewrite pop_eval, rev_involutive. induction p as [|c p IH]; [apply cg_refl|]. cbn [map eval]. apply cg_add; [apply cg_rem|]. apply cg_mul; [apply cg_refl|exact IH]. }
  unfold poly_norm_mod. cbv zeta. destruct (rev _) as [|c v]; [|exact G]. cbn [eval] in *. eapply cg_trans; [|exact G]. exists 0. lia.
Qed.
Lemma norm_ranged p : ranged (poly_norm_mod p n).
Proof.
  unfold poly_norm_mod. cbv zeta. destruct (rev _) as [|c v] eqn:E; [constructor; [lia|constructor]|]. rewrite <- E. apply Forall_forall. intros y Hy.
  apply in_rev, pop_in in Hy. rewrite <- in_rev in Hy. apply in_map_iff in Hy as (z & <- & _). apply pos_rem_range.
Qed.
Lemma norm_nonempty p : poly_norm_mod p n <> [].
Proof. unfold poly_norm_mod. cbv zeta. destruct (rev _); discriminate. Qed.
Lemma norm_len p : (1 <= length (poly_norm_mod p n) <= Nat.max 1 (length p))%nat.
Proof.
  split; [pose proof (norm_nonempty p); destruct (poly_norm_mod p n); cbn; [congruence|lia]|].
  pose proof (pop_len (rev (map (fun c => pos_rem c n) p))) as P. rewrite rev_length, map_length in P. rewrite <- (rev_length (pop_zeros _)) in P.
  unfold poly_norm_mod. cbv zeta. destruct (rev _) as [|c v]; cbn [length] in *; lia.
Qed.
Lemma norm_len_drop p c : p <> [] -> cg c 0 -> (length (poly_norm_mod (p ++ [c]) n) <= length p)%nat.
Proof.
  intros Hp Hc. assert (E : pos_rem c n = 0) by (rewrite pos_rem_spec by lia; apply Z.mod_divide; [lia|now apply cg_0]).
  assert (G : pop_zeros (rev (map (fun c => pos_rem c n) (p ++ [c]))) = pop_zeros (rev (map (fun c => pos_rem c n) p))).
  { rewrite map_app, rev_app_distr. cbn [map rev app]. rewrite E. destruct (rev (map _ p)) as [|y l] eqn:R; [|reflexivity].
    apply (f_equal (@length Z)) in R. rewrite rev_length, map_length in R. destruct p; [congruence|discriminate]. }
  assert (Q : poly_norm_mod (p ++ [c]) n = poly_norm_mod p n) by (unfold poly_norm_mod; rewrite G; reflexivity). rewrite Q. pose proof (norm_len p) as L.
  assert (1 <= length p)%nat by (destruct p; [congruence|cbn; lia]). lia.
Qed.

Lemma mul_row_spec ai x : forall b k out, (k + length b <= length out)%nat ->
  length (mul_row n ai b k out) = length out /\ cg (eval (mul_row n ai b k out) x) (eval out x + ai * x ^ Z.of_nat k * eval b x).
Proof.
  induction b as [|y b IH]; intros k out Hk; cbn [mul_row eval length] in *; [split; [reflexivity|]; exists 0; lia|].
  destruct (IH (S k) (set_nth out k (pos_rem (nth k out 0 + ai * y) n))) as [L E]; [rewrite set_nth_len; lia|]. rewrite set_nth_len in L. split; [exact L|].
  eapply cg_trans; [exact E|]. rewrite set_nth_eval by lia. rewrite Nat2Z.inj_succ, Z.pow_succ_r by lia.
  set (q := x ^ Z.of_nat k). pose proof (cg_rem (nth k out 0 + ai * y)) as [w R]. exists (w * q).
  replace (eval out x + (pos_rem (nth k out 0 + ai * y) n - nth k out 0) * q + ai * (x * q) * eval b x - (eval out x + ai * q * (y + x * eval b x)))
    with ((pos_rem (nth k out 0 + ai * y) n - (nth k out 0 + ai * y)) * q) by ring. rewrite R. ring.
Qed.
Lemma mul_rows_spec x b : forall a i out, (i + length a + length b <= length out + 1)%nat ->
  length (mul_rows n a b i out) = length out /\ cg (eval (mul_rows n a b i out) x) (eval out x + x ^ Z.of_nat i * eval a x * eval b x).
Proof.
  induction a as [|y a IH]; intros i out Hi; cbn [mul_rows eval length] in *; [split; [reflexivity|]; exists 0; lia|].
  destruct (mul_row_spec y x b i out ltac:(lia)) as [L1 E1]. destruct (IH (S i) (mul_row n y b i out)) as [L2 E2]; [rewrite L1; lia|].
  split; [congruence|]. eapply cg_trans; [exact E2|]. rewrite Nat2Z.inj_succ, Z.pow_succ_r by lia.
  replace (eval out x + x ^ Z.of_nat i * (y + x * eval a x) * eval b x) with ((eval out x + y * x ^ Z.of_nat i * eval b x) + (x * x ^ Z.of_nat i) * eval a x * eval b x) by ring.
  apply cg_add; [exact E1|apply cg_refl].
Qed.
Lemma poly_mul_spec a b x : cg (eval (poly_mul_mod a b n) x) (eval a x * eval b x).
Proof.
  unfold poly_mul_mod. eapply cg_trans; [apply norm_eval|].
  destruct (mul_rows_spec x b a 0 (repeat 0 (length a + length b - 1))) as [_ E]; [rewrite repeat_length; lia|]. eapply cg_trans; [exact E|].
  rewrite eval_repeat, Z.pow_0_r. exists 0. lia.
Qed.
Lemma poly_mul_len a b : a <> [] -> (length b = 2)%nat -> (length (poly_mul_mod a b n) <= S (length a))%nat.
Proof.
  intros Ha Hb. unfold poly_mul_mod. pose proof (norm_len (mul_rows n a b 0 (repeat 0 (length a + length b - 1)))) as L.
  destruct (mul_rows_spec 0 b a 0 (repeat 0 (length a + length b - 1))) as [E _]; [rewrite repeat_length; lia|]. rewrite E, repeat_length in L.
  destruct a; [congruence|]. cbn [length] in *. lia.
Qed.
Lemma fr_power_spec xr x : (length xr = 2)%nat -> forall k g, g <> [] ->
  fr_power k xr g n <> [] /\ (length (fr_power k xr g n) <= k + length g)%nat /\ cg (eval (fr_power k xr g n) x) (eval g x * eval xr x ^ Z.of_nat k).
Proof.
  intros Hx. induction k as [|k IH]; intros g Hg; cbn [fr_power].
  - split; [exact Hg|]. split; [lia|]. rewrite Z.pow_0_r, Z.mul_1_r. apply cg_refl.
  - destruct (IH (poly_mul_mod g xr n) (norm_nonempty _)) as (N & L & E). pose proof (poly_mul_len g xr Hg Hx). split; [exact N|]. split; [lia|].
    eapply cg_trans; [exact E|]. rewrite Nat2Z.inj_succ, Z.pow_succ_r by lia. rewrite Z.mul_assoc. apply cg_mul; [apply poly_mul_spec|apply cg_refl].
Qed.
Lemma fr_g1_spec e c1 x : (1 <= e)%nat -> length (fr_g1 e c1 n) = (e + 1)%nat /\ cg (eval (fr_g1 e c1 n) x) (x ^ Z.of_nat e - c1).
Proof.
  intros He. unfold fr_g1. rewrite !set_nth_len, repeat_length. split; [reflexivity|]. rewrite set_nth_eval by (rewrite set_nth_len, repeat_length; lia).
  rewrite set_nth_eval by (rewrite repeat_length; lia). rewrite eval_repeat, Z.pow_0_r.
  assert (N : nth e (set_nth (repeat 0 (e + 1)) 0 (pos_rem (- c1) n)) 0 = 0).
  { destruct e as [|e]; [lia|]. cbn [Nat.add repeat set_nth nth]. apply nth_repeat. }
  rewrite N. replace (nth 0 (repeat 0 (e + 1)) 0) with 0 by (destruct e; reflexivity).
  replace (x ^ Z.of_nat e - c1) with (0 + (- c1 - 0) * 1 + (1 - 0) * x ^ Z.of_nat e) by ring. apply cg_add; [|apply cg_refl]. apply cg_add; [apply cg_refl|].
  apply cg_mul; [|apply cg_refl]. apply cg_sub; [apply cg_rem|apply cg_refl].
Qed.
Lemma fr_g2_spec e r c2 x : (length (fr_g2 e r c2 n) <= e + 1)%nat /\ cg (eval (fr_g2 e r c2 n) x) ((x + r) ^ Z.of_nat e - c2).
Proof.
  unfold fr_g2. cbv zeta. destruct (fr_power_spec [pos_rem r n; 1] x eq_refl e [1] ltac:(discriminate)) as (N & L & E).
  set (g := fr_power e _ _ n) in *. rewrite set_nth_len. split; [cbn [length] in L; lia|]. rewrite set_nth_eval by (destruct g; [congruence|cbn; lia]).
  rewrite Z.pow_0_r. set (u := nth 0 g 0).
  assert (E' : cg (eval g x) ((x + r) ^ Z.of_nat e)).
  { eapply cg_trans; [exact E|]. replace (eval [1] x) with 1 by (cbn [eval]; ring). rewrite Z.mul_1_l. apply cg_pow. cbn [eval].
    replace (x + r) with (r + x * (1 + x * 0)) by ring. apply cg_add; [apply cg_rem|apply cg_refl]. }
  replace ((x + r) ^ Z.of_nat e - c2) with ((x + r) ^ Z.of_nat e + ((u - c2) - u) * 1) by ring. apply cg_add; [exact E'|]. apply cg_mul; [|apply cg_refl].
  apply cg_sub; [apply cg_rem|apply cg_refl].
Qed.

(** Division. *)
Lemma sub_mul_spec f x : forall r b, length r = length b -> length (sub_mul n f r b) = length r /\ cg (eval (sub_mul n f r b) x) (eval r x - f * eval b x).
Proof.
  induction r as [|y r IH]; intros [|z b] L; try discriminate; cbn [sub_mul eval length]; [split; [reflexivity|]; exists 0; lia|].
  destruct (IH b ltac:(cbn in L; lia)) as [L' E]. split; [now rewrite L'|].
  replace (y + x * eval r x - f * (z + x * eval b x)) with ((y - f * z) + x * (eval r x - f * eval b x)) by ring. apply cg_add; [apply cg_rem|]. apply cg_mul; [apply cg_refl|exact E].
Qed.
Lemma sub_mul_last f : forall r b y z, length r = length b -> sub_mul n f (r ++ [y]) (b ++ [z]) = sub_mul n f r b ++ [pos_rem (y - f * z) n].
Proof. induction r as [|u r IH]; intros [|v b] y z L; try discriminate; cbn; [reflexivity|]. f_equal. apply IH. cbn in L. lia. Qed.
Lemma rem_step_eval b inv r x : b <> [] -> (length b <= length r)%nat -> cg (eval b x) 0 -> cg (eval (rem_step b inv n r) x) (eval r x).
Proof.
  intros Hb Hl Hz. unfold rem_step. cbv zeta. eapply cg_trans; [apply norm_eval|]. set (s := (length r - 1 - (length b - 1))%nat). set (f := pos_rem _ n).
  assert (Lb : (1 <= length b)%nat) by (destruct b; [congruence|cbn; lia]).
  destruct (sub_mul_spec f x (skipn s r) b) as [_ E]; [rewrite skipn_length; lia|]. replace (eval r x) with (eval (firstn s r ++ skipn s r) x) by now rewrite firstn_skipn. rewrite !eval_app.
  apply cg_add; [apply cg_refl|]. apply cg_mul; [apply cg_refl|]. eapply cg_trans; [exact E|].
  replace (eval (skipn s r) x) with (eval (skipn s r) x - f * 0) at 2 by ring. apply cg_sub; [apply cg_refl|]. apply cg_mul; [apply cg_refl|exact Hz].
Qed.
Lemma rem_step_len b inv r : (2 <= length b <= length r)%nat -> cg (nth (length b - 1) b 0 * inv) 1 -> (length (rem_step b inv n r) < length r)%nat.
Proof.
  intros Hl Hi. unfold rem_step. cbv zeta. remember (length r - 1 - (length b - 1))%nat as s eqn:Es.
  destruct (@exists_last Z r) as (r' & y & ->); [destruct r; [cbn in Hl; lia|discriminate]|].
  destruct (@exists_last Z b) as (b' & z & ->); [destruct b; [cbn in Hl; lia|discriminate]|].
  rewrite !app_length in *. cbn [length] in *. replace (length r' + 1 - 1)%nat with (length r') in * by lia. replace (length b' + 1 - 1)%nat with (length b') in * by lia.
  rewrite nth_middle. rewrite nth_middle in Hi. rewrite skipn_app, firstn_app. replace (s - length r')%nat with 0%nat by lia. cbn [firstn skipn]. rewrite app_nil_r.
  rewrite sub_mul_last by (rewrite skipn_length; lia). rewrite app_assoc.
  assert (Len : length (firstn s r' ++ sub_mul n (pos_rem (y * inv) n) (skipn s r') b') = length r').
  { rewrite app_length. destruct (sub_mul_spec (pos_rem (y * inv) n) 0 (skipn s r') b') as [-> _]; [rewrite skipn_length; lia|]. rewrite firstn_length, skipn_length. lia. }
  match goal with |- context [poly_norm_mod (?p ++ [?c]) n] => pose proof (norm_len_drop p c) as D end. rewrite Len in D. 
  assert (Hd : (length (poly_norm_mod ((firstn s r' ++ sub_mul n (pos_rem (y * inv) n) (skipn s r') b') ++ [pos_rem (y - pos_rem (y * inv) n * z) n]) n) <= length r')%nat).
  { apply D; [intros E; rewrite E in Len; cbn in Len; lia|]. eapply cg_trans; [apply cg_rem|]. replace 0 with (y - y * 1) by ring. apply cg_sub; [apply cg_refl|].
    eapply cg_trans; [apply cg_mul; [apply cg_rem|apply cg_refl]|]. replace (y * inv * z) with (y * (z * inv)) by ring. apply cg_mul; [apply cg_refl|exact Hi]. }
  lia.
Qed.
Lemma rem_loop_spec b inv x : (2 <= length b)%nat -> cg (nth (length b - 1) b 0 * inv) 1 -> cg (eval b x) 0 ->
  forall fuel r, (length r < fuel)%nat -> r <> [] -> ranged r ->
  exists r', rem_loop fuel b inv n r = Some r' /\ r' <> [] /\ (length r' < length b)%nat /\ ranged r' /\ cg (eval r' x) (eval r x).
Proof.
  intros Hb Hi Hz. induction fuel as [|fuel IH]; intros r Hf Hr Hg; [lia|]. cbn [rem_loop]. destruct (Nat.ltb_spec (length b - 1) (length r)) as [L|L].
  - pose proof (rem_step_len b inv r ltac:(lia) Hi) as D. destruct (IH (rem_step b inv n r) ltac:(lia) (norm_nonempty _) (norm_ranged _)) as (r' & E1 & E2 & E3 & E4 & E5).
    exists r'. split; [exact E1|]. split; [exact E2|]. split; [exact E3|]. split; [exact E4|]. eapply cg_trans; [exact E5|]. apply rem_step_eval; [destruct b; [cbn in Hb; lia|discriminate]|lia|exact Hz].
  - exists r. repeat split; auto; [lia|apply cg_refl].
Qed.
Lemma poly_rem_spec a b x fuel : cg (eval a x) 0 -> cg (eval b x) 0 -> (Nat.max 1 (length a) < fuel)%nat ->
  poly_rem_mod fuel a b n = Some None \/
  exists r, poly_rem_mod fuel a b n = Some (Some r) /\ r <> [] /\ (length r < length b)%nat /\ ranged r /\ cg (eval r x) 0.
Proof.
  intros Ha Hb Hf. unfold poly_rem_mod. cbv zeta. set (b' := poly_norm_mod b n). pose proof (norm_len b) as Lb. fold b' in Lb.
  assert (Zb : cg (eval b' x) 0) by (eapply cg_trans; [apply norm_eval|exact Hb]). assert (Rb : ranged b') by apply norm_ranged.
  destruct (forallb _ b') eqn:Fz; [now left|]. destruct (Nat.le_gt_cases 2 (length b')) as [L|L].
  - assert (R0 : 0 <= nth (length b' - 1) b' 0). { apply Forall_forall with (x := nth (length b' - 1) b' 0) in Rb; [lia|]. apply nth_In. lia. }
    pose proof (mod_inverse_spec (nth (length b' - 1) b' 0) n R0 ltac:(lia)) as MI. destruct (mod_inverse _ n) as [inv|]; [|now left]. right. destruct MI as (_ & MI & _).
    destruct (rem_loop_spec b' inv x L MI Zb fuel (poly_norm_mod a n)) as (r' & E1 & E2 & E3 & E4 & E5); [pose proof (norm_len a); lia|apply norm_nonempty|apply norm_ranged|].
    rewrite E1. exists r'. split; [reflexivity|]. split; [exact E2|]. split; [lia|]. split; [exact E4|]. eapply cg_trans; [exact E5|]. eapply cg_trans; [apply norm_eval|exact Ha].
  - exfalso. destruct b' as [|c [|]] eqn:Eb; cbn [length] in *; try lia. apply cg_0 in Zb. cbn [eval] in Zb. replace (c + x * 0) with c in Zb by ring.
    inversion Rb as [|? ? Rc _]; subst. assert (c = 0) as ->. { destruct (Z.eq_dec c 0); [assumption|]. apply Z.divide_pos_le in Zb; lia. } discriminate.
Qed.
Lemma gcd_steps_spec x fuel : forall steps a b, cg (eval a x) 0 -> cg (eval b x) 0 -> ranged a -> ranged b -> b <> [] -> (length b <= steps)%nat ->
  (Nat.max (length a) (length b) < fuel)%nat -> (1 <= steps)%nat ->
  gcd_steps steps fuel a b n = Some None \/ exists g, gcd_steps steps fuel a b n = Some (Some g) /\ ranged g /\ cg (eval g x) 0.
Proof.
  induction steps as [|steps IH]; intros a b Ha Hb Ra Rb Nb Hs Hf H1; [lia|]. cbn [gcd_steps]. destruct (is_zero_poly b) eqn:Z0; [right; now exists a|].
  assert (Lb : (1 <= length b)%nat) by (destruct b; [congruence|cbn; lia]).
  destruct (poly_rem_spec a b x fuel Ha Hb ltac:(lia)) as [E|(r & E & Nr & Lr & Rr & Zr)]; rewrite E; [now left|].
  assert (1 <= length r)%nat by (destruct r; [congruence|cbn; lia]). apply IH; auto; lia.
Qed.
Lemma attack_spec e r c1 c2 x fuel : (1 <= e)%nat -> (e + 2 < fuel)%nat -> cg (x ^ Z.of_nat e) c1 -> cg ((x + r) ^ Z.of_nat e) c2 ->
  exists res, franklin_reiter fuel e r c1 c2 n = Some res /\ forall m, res = Some m -> m = x mod n.
Proof.
  intros He Hf H1 H2. unfold franklin_reiter, poly_gcd_mod. destruct (fr_g1_spec e c1 x He) as [L1 E1]. destruct (fr_g2_spec e r c2 x) as [L2 E2].
  pose proof (norm_len (fr_g1 e c1 n)). pose proof (norm_len (fr_g2 e r c2 n)).
  assert (Z1 : cg (x ^ Z.of_nat e - c1) 0) by (apply cg_0; exact H1). assert (Z2 : cg ((x + r) ^ Z.of_nat e - c2) 0) by (apply cg_0; exact H2).
  destruct (gcd_steps_spec x fuel fuel (poly_norm_mod (fr_g1 e c1 n) n) (poly_norm_mod (fr_g2 e r c2 n) n)) as [E|(g & E & Rg & Zg)].
  1: eapply cg_trans; [apply norm_eval|]; eapply cg_trans; eassumption.
  1: eapply cg_trans; [apply norm_eval|]; eapply cg_trans; eassumption.
  1,2: apply norm_ranged. 1: apply norm_nonempty. 1-3: lia.
  - rewrite E. exists None. split; [reflexivity|]. discriminate.
  - rewrite E. eexists. split; [reflexivity|]. intros m. destruct g as [|g0 [|g1 [|]]]; try discriminate.
    inversion Rg as [|? ? R0 Rg']; subst. inversion Rg' as [|? ? R1 _]; subst. pose proof (mod_inverse_spec g1 n ltac:(lia) ltac:(lia)) as MI.
    destruct (mod_inverse g1 n) as [inv|]; [|discriminate]. cbv zeta. destruct (_ =? _); [|discriminate]. intros [= <-]. rewrite pos_rem_spec by lia. apply mod_eq_divide; [lia|].
    destruct MI as (_ & [k MI] & _). unfold cg in Zg. rewrite Z.sub_0_r in Zg. destruct Zg as [j Zg]. cbn [eval] in Zg. exists (- j * inv + k * x). replace (- g0 * inv - x) with (- (g0 + x * (g1 + x * 0)) * inv + (g1 * inv - 1) * x) by ring.
    rewrite Zg, MI. ring.
Qed.
(** Dividing by an invertible constant never ends. *)
Lemma rem_loop_diverges c inv : forall fuel r, r <> [] -> rem_loop fuel [c] inv n r = None.
Proof.
  induction fuel as [|fuel IH]; intros r Hr; [reflexivity|]. cbn [rem_loop length]. destruct (Nat.ltb_spec (1 - 1) (length r)) as [L|L].
  - apply IH. apply norm_nonempty.
  - destruct r; [congruence|cbn in L; lia].
Qed.
End mod_n.

(** A returned message is a residue whose [e]-th power is the first ciphertext. *)
Theorem C119_sound fuel e r c1 c2 n m : 1 < n -> franklin_reiter fuel e r c1 c2 n = Some (Some m) -> 0 <= m < n /\ m ^ Z.of_nat e mod n = c1 mod n.
Proof.
  intros Hn. unfold franklin_reiter. destruct (poly_gcd_mod _ _ _ _) as [[g|]|]; try discriminate. destruct g as [|g0 [|g1 [|]]]; try discriminate.
  destruct (mod_inverse g1 n) as [inv|]; [|discriminate]. cbv zeta. pose proof (pos_rem_range n Hn (- g0 * inv)) as R. destruct (Z.eqb_spec (modpow (pos_rem (- g0 * inv) n) (Z.of_nat e) n) (pos_rem c1 n)) as [E|]; [|discriminate].
  intros [= <-]. split; [exact R|]. rewrite modpow_mod in E by lia. rewrite E. apply pos_rem_spec. lia.
Qed.
(** For ciphertexts of a message [x] and of [x + r] the attack ends, and the only message it can return is [x]. *)
Theorem C119_related e r c1 c2 n x fuel : 1 < n -> (1 <= e)%nat -> x ^ Z.of_nat e mod n = c1 mod n -> (x + r) ^ Z.of_nat e mod n = c2 mod n ->
  (e + 2 < fuel)%nat -> exists res, franklin_reiter fuel e r c1 c2 n = Some res /\ forall m, res = Some m -> m = x mod n.
Proof. intros Hn He H1 H2 Hf. apply mod_eq_divide in H1, H2; try lia. now apply (attack_spec n Hn). Qed.
(** Polynomial division by an invertible constant does not end, whatever the dividend. *)
Theorem C119_unit_divisor a c n fuel : 1 < n -> 0 <= c < n -> Z.gcd c n = 1 -> poly_rem_mod fuel a [c] n = None.
Proof.
  intros Hn Hc Hg. unfold poly_rem_mod. cbv zeta. replace (poly_norm_mod [c] n) with [c].
  2: { unfold poly_norm_mod. cbn [map rev app pop_zeros]. rewrite pos_rem_spec by lia. rewrite Z.mod_small by lia. reflexivity. }
  cbn [forallb length Nat.sub nth]. destruct (Z.eqb_spec c 0) as [->|Hne]; [rewrite Z.gcd_0_l in Hg; lia|]. cbn [andb].
  pose proof (mod_inverse_spec c n ltac:(lia) ltac:(lia)) as MI. destruct (mod_inverse c n) as [inv|]; [|contradiction].
  rewrite rem_loop_diverges; [reflexivity|apply norm_nonempty].
Qed.
(** So the attack hangs on unrelated ciphertexts, instead of answering [None]: modulus 3233, exponent 3, 5^3 and 6^3 + 1. *)
Theorem C119_unrelated_refuted : exists e r c1 c2 n, forall fuel, franklin_reiter fuel e r c1 c2 n = None.
Proof.
  exists 3%nat, 1, 125, 217, 3233. intros fuel. do 8 (destruct fuel as [|fuel]; [vm_compute; reflexivity|]).
  unfold franklin_reiter, poly_gcd_mod.
  replace (poly_norm_mod (fr_g1 3 125 3233) 3233) with [3108; 0; 0; 1] by (vm_compute; reflexivity).
  replace (poly_norm_mod (fr_g2 3 1 217 3233) 3233) with [3017; 3; 3; 1] by (vm_compute; reflexivity).
  set (F := S (S (S (S (S (S (S (S fuel)))))))).
  assert (E1 : poly_rem_mod F [3108; 0; 0; 1] [3017; 3; 3; 1] 3233 = Some (Some [91; 3230; 3230])) by (vm_compute; reflexivity).
  assert (E2 : poly_rem_mod F [3017; 3; 3; 1] [91; 3230; 3230] 3233 = Some (Some [2000; 1109])) by (vm_compute; reflexivity).
  assert (E3 : poly_rem_mod F [91; 3230; 3230] [2000; 1109] 3233 = Some (Some [661])) by (vm_compute; reflexivity).
  assert (E4 : poly_rem_mod F [2000; 1109] [661] 3233 = None) by (apply C119_unit_divisor; [lia|lia|reflexivity]).
  unfold F at 1. cbn [gcd_steps is_zero_poly]. rewrite E1. cbn [is_zero_poly]. rewrite E2. cbn [is_zero_poly]. rewrite E3. cbn [is_zero_poly]. change (661 =? 0) with false. cbv iota. rewrite E4. reflexivity.
Qed.
Example C119_example :
  franklin_reiter 9 3 1 125 216 3233 = Some (Some 5) /\ fr_g2 3 1 216 3233 = [3018; 3; 3; 1] /\ poly_mul_mod [1; 2] [3; 4] 10 = [3; 0; 8].
Proof. vm_compute. repeat split. Qed.
