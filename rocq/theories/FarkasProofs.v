(** Lemmas for [FarkasModel]. *)
From Coq Require Import ZArith QArith Qcanon String List Bool Lia Lqa.
From stdpp Require Import gmap strings list.
From Verif Require Import LinMap LinExprModel LinExprProofs LiaModel LiaProofs LiaProps FarkasModel.
Local Open Scope Qc_scope.

(** The value of an expression at a rational point. *)
Definition fval (e : linexpr) (w : string -> Qc) : Qc := q_of_Z (const e) + msum (Q2Qc 0) Qcplus Qcmult (q_of_Z <$> coeffs e) w.
(** No stored coefficient is zero. *)
Definition pruned (e : linexpr) : Prop := forall x c, coeffs e !! x = Some c -> c <> 0%Z.

Lemma q_of_Z_0 : q_of_Z 0 = Q2Qc 0. Proof. reflexivity. Qed.
Lemma q_of_Z_1 : q_of_Z 1 = Q2Qc 1. Proof. reflexivity. Qed.
Lemma q_of_Z_opp a : q_of_Z (- a) = - q_of_Z a.
Proof. unfold q_of_Z. apply Qc_is_canon. rewrite qc_opp, !qc_const, inject_Z_opp. reflexivity. Qed.
Lemma get_coeff e x : get (Q2Qc 0) (q_of_Z <$> coeffs e) x = q_of_Z (coeff e x).
Proof. unfold get, coeff. rewrite lookup_fmap. by destruct (coeffs e !! x). Qed.

Lemma lookup_prune m x : prune m !! x = match m !! x with Some c => if (c =? 0)%Z then None else Some c | None => None end.
Proof. unfold prune. rewrite lookup_omap. by destruct (m !! x). Qed.
Lemma dprune c : default 0%Z (if (c =? 0)%Z then None else Some c) = c.
Proof. by destruct (Z.eqb_spec c 0). Qed.
Lemma coeff_add a b x : coeff (le_add a b) x = (coeff a x + coeff b x)%Z.
Proof.
  unfold coeff, le_add. cbn [coeffs]. rewrite lookup_prune, lookup_merge.
  destruct (coeffs a !! x) as [c|], (coeffs b !! x) as [d|]; cbn [diag_None add_entry]; rewrite ?dprune; cbn [default]; unfold id; try lia.
Qed.
Lemma coeff_constant c x : coeff (le_constant c) x = 0%Z.
Proof. unfold coeff. cbn [coeffs le_constant]. by rewrite lookup_empty. Qed.
Lemma coeff_neg a x : coeff (le_neg a) x = (- coeff a x)%Z.
Proof. unfold coeff, le_neg. cbn [coeffs]. rewrite lookup_fmap. by destruct (coeffs a !! x). Qed.
Lemma coeff_scale a k x : coeff (le_scale a k) x = (coeff a x * k)%Z.
Proof.
  unfold coeff, le_scale. cbn [coeffs]. rewrite lookup_prune, lookup_fmap. destruct (coeffs a !! x) as [c|]; cbn; [|lia].
  destruct (Z.eqb_spec (c * k) 0) as [E|E]; cbn; lia.
Qed.
Lemma prune_nz m x c : prune m !! x = Some c -> c <> 0%Z.
Proof.
  rewrite lookup_prune. destruct (m !! x) as [d|]; [|done]. destruct (Z.eqb_spec d 0) as [E|E]; [done|]. by intros [= <-].
Qed.
Lemma pruned_add a b : pruned (le_add a b). Proof. intros x c. apply prune_nz. Qed.
Lemma pruned_scale a k : pruned (le_scale a k). Proof. intros x c. apply prune_nz. Qed.
Lemma pruned_neg a : pruned a -> pruned (le_neg a).
Proof.
  intros H x c. unfold le_neg. cbn [coeffs]. rewrite lookup_fmap. destruct (coeffs a !! x) as [d|] eqn:E; [|done].
  cbn. intros [= <-]. pose proof (H _ _ E). lia.
Qed.
Lemma pruned_constant c : pruned (le_constant c). Proof. intros x d H. cbn in H. by rewrite lookup_empty in H. Qed.
Lemma pruned_var x : pruned (le_var x).
Proof. intros y d H. cbn in H. apply lookup_singleton_Some in H as [_ <-]. lia. Qed.
Lemma is_constant_spec e : is_constant e = true <-> coeffs e = ∅.
Proof. unfold is_constant. apply bool_decide_eq_true. Qed.
Lemma pruned_all_zero e : pruned e -> (forall x, coeff e x = 0%Z) -> coeffs e = ∅.
Proof.
  intros Hp Hz. apply map_eq. intros x. rewrite lookup_empty. destruct (coeffs e !! x) as [c|] eqn:E; [|done].
  exfalso. apply (Hp _ _ E). specialize (Hz x). unfold coeff in Hz. by rewrite E in Hz.
Qed.
Lemma coeff_some e x : pruned e -> is_Some (coeffs e !! x) <-> coeff e x <> 0%Z.
Proof.
  intros Hp. unfold coeff. destruct (coeffs e !! x) as [c|] eqn:E; cbn.
  - split; [|eauto]. intros _. by apply (Hp x).
  - split; [intros [? ?]; done|lia].
Qed.

Lemma fval_lin e a b k l w : (forall x, coeff e x = (coeff a x * k + coeff b x * l)%Z) -> const e = (const a * k + const b * l)%Z ->
  fval e w = q_of_Z k * fval a w + q_of_Z l * fval b w.
Proof.
  intros Hc Hk. unfold fval. rewrite Hk.
  rewrite (msum_lin _ _ _ _ _ _ Qcrt _ (q_of_Z <$> coeffs a) (q_of_Z <$> coeffs b) (q_of_Z k) (q_of_Z l)).
  - rewrite q_of_Z_add, !q_of_Z_mul. ring.
  - intros x. rewrite !get_coeff, Hc, q_of_Z_add, !q_of_Z_mul. ring.
Qed.
Lemma fval_add a b w : fval (le_add a b) w = fval a w + fval b w.
Proof.
  rewrite (fval_lin _ a b 1 1), !q_of_Z_1; [ring| |].
  - intros x. rewrite coeff_add. ring.
  - cbn. ring.
Qed.
Lemma fval_neg a w : fval (le_neg a) w = - fval a w.
Proof.
  rewrite (fval_lin _ a a (-1) 0), q_of_Z_0.
  - replace (q_of_Z (-1)) with (- (Q2Qc 1)) by reflexivity. ring.
  - intros x. rewrite coeff_neg. ring.
  - cbn. ring.
Qed.
Lemma fval_sub a b w : fval (le_sub a b) w = fval a w - fval b w.
Proof. unfold le_sub. rewrite fval_add, fval_neg. ring. Qed.
Lemma fval_scale a k w : fval (le_scale a k) w = q_of_Z k * fval a w.
Proof.
  rewrite (fval_lin _ a a k 0), q_of_Z_0; [ring| |].
  - intros x. rewrite coeff_scale. ring.
  - cbn. ring.
Qed.
Lemma fval_constant e w : coeffs e = ∅ -> fval e w = q_of_Z (const e).
Proof. intros H. unfold fval. rewrite H, fmap_empty, (msum_empty _ _ _ _ _ _ Qcrt). ring. Qed.
Lemma fval_var x w : fval (le_var x) w = w x.
Proof.
  unfold fval, le_var. cbn [coeffs const]. rewrite map_fmap_singleton, (msum_singleton _ _ _ _ _ _ Qcrt), q_of_Z_0, q_of_Z_1. ring.
Qed.
(** Changing one coordinate. *)
Definition fupd (w : string -> Qc) (v : string) (t : Qc) : string -> Qc := fun x => if String.eqb x v then t else w x.
Lemma fval_upd e v t w : fval e (fupd w v t) = q_of_Z (coeff e v) * t + fval e (fupd w v 0).
Proof.
  unfold fval. rewrite !(msum_split _ _ _ _ _ _ Qcrt (q_of_Z <$> coeffs e) v), !get_coeff.
  assert (E : msum (Q2Qc 0) Qcplus Qcmult (delete v (q_of_Z <$> coeffs e)) (fupd w v t) = msum (Q2Qc 0) Qcplus Qcmult (delete v (q_of_Z <$> coeffs e)) (fupd w v 0)).
  { apply (msum_w_ext _ _ _ _ _ _ Qcrt); [|intros r; apply Qc_eq_dec]. intros k Hk. unfold fupd.
    destruct (String.eqb_spec k v) as [->|]; [|done]. exfalso. apply Hk. rewrite get_delete. by case_decide. }
  rewrite E. unfold fupd at 1 3. rewrite String.eqb_refl. ring.
Qed.
Lemma fval_upd_self e v w : fval e w = fval e (fupd w v (w v)).
Proof.
  unfold fval. f_equal. apply (msum_w_ext _ _ _ _ _ _ Qcrt); [|intros r; apply Qc_eq_dec].
  intros k _. unfold fupd. destruct (String.eqb_spec k v) as [->|]; done.
Qed.
Lemma fval_split e v w : fval e w = q_of_Z (coeff e v) * w v + fval e (fupd w v 0).
Proof. rewrite (fval_upd_self e v w) at 1. apply fval_upd. Qed.

(** Certificates: the sum over all indices. *)
Fixpoint csum (i : nat) (cs : list linexpr) (m : gmap nat Z) (f : linexpr -> Z) : Z :=
  match cs with [] => 0%Z | c :: cs => (default 0%Z (m !! i) * f c + csum (S i) cs m f)%Z end.
Definition cert (cs : list linexpr) (r : row) : Prop :=
  (forall x, coeff (re r) x = csum 0 cs (prov r) (fun c => coeff c x)) /\
  const (re r) = csum 0 cs (prov r) const /\
  forall i k, prov r !! i = Some k -> (0 < k)%Z /\ (i < length cs)%nat.
Lemma csum_ext cs m m' f : forall i, (forall j, default 0%Z (m !! j) = default 0%Z (m' !! j)) -> csum i cs m f = csum i cs m' f.
Proof. induction cs as [|c cs IH]; intros i H; cbn; [done|]. by rewrite H, (IH _ H). Qed.
Lemma csum_zero cs m f : forall i, (forall j, (i <= j)%nat -> default 0%Z (m !! j) = 0%Z) -> csum i cs m f = 0%Z.
Proof.
  induction cs as [|c cs IH]; intros i H; cbn; [done|]. rewrite H by lia. rewrite IH; [lia|]. intros j Hj. apply H. lia.
Qed.
Lemma csum_lin cs m a b ka kb f : forall i,
  (forall j, default 0%Z (m !! j) = (default 0 (a !! j) * ka + default 0 (b !! j) * kb)%Z) ->
  csum i cs m f = (csum i cs a f * ka + csum i cs b f * kb)%Z.
Proof. induction cs as [|c cs IH]; intros i H; cbn; [done|]. rewrite H, (IH _ H). ring. Qed.
Lemma csum_single cs f : forall i j c, cs !! j = Some c -> csum i cs {[(i + j)%nat := 1%Z]} f = f c.
Proof.
  induction cs as [|d cs IH]; intros i j c Hj; [done|]. destruct j as [|j]; cbn in *.
  - injection Hj as ->. rewrite Nat.add_0_r, lookup_singleton. cbn [default].
    rewrite csum_zero; [cbn; ring|]. intros j Hj. rewrite lookup_singleton_ne by lia. done.
  - rewrite lookup_singleton_ne by lia. cbn [default]. replace (i + S j)%nat with (S i + j)%nat by lia. rewrite (IH (S i) j c Hj). cbn; ring.
Qed.

Lemma prov_get a ka b kb j : default 0%Z (combine_prov a ka b kb !! j) = (default 0 (a !! j) * ka + default 0 (b !! j) * kb)%Z.
Proof.
  unfold combine_prov, prune_prov. rewrite lookup_omap, lookup_merge, !lookup_fmap.
  destruct (a !! j) as [c|], (b !! j) as [d|]; cbn [fmap option_fmap option_map mbind option_bind diag_None add_entry]; rewrite ?dprune; cbn [default]; unfold id; try lia.
Qed.
Lemma prov_some a ka b kb j k : combine_prov a ka b kb !! j = Some k ->
  (is_Some (a !! j) \/ is_Some (b !! j)) /\ k = (default 0 (a !! j) * ka + default 0 (b !! j) * kb)%Z.
Proof.
  intros H. assert (E : k = default 0%Z (combine_prov a ka b kb !! j)) by (by rewrite H). rewrite prov_get in E. split; [|done].
  unfold combine_prov, prune_prov in H. rewrite lookup_omap, lookup_merge, !lookup_fmap in H.
  destruct (a !! j), (b !! j); cbn in H; eauto.
Qed.

Lemma csum_prov i cs a ka b kb f : csum i cs (combine_prov a ka b kb) f = (csum i cs a f * ka + csum i cs b f * kb)%Z.
Proof. apply csum_lin. intros j. apply prov_get. Qed.
Lemma cert_pair cs v p n : cert cs p -> cert cs n -> (0 < coeff (re p) v)%Z -> (coeff (re n) v < 0)%Z -> cert cs (pair_row v p n).
Proof.
  intros (P1 & P2 & P3) (N1 & N2 & N3) Hp Hn. unfold pair_row. repeat split; cbn [re prov].
  - intros x. rewrite csum_prov, coeff_add, !coeff_scale, (P1 x), (N1 x). reflexivity.
  - cbn [le_add le_scale const]. rewrite csum_prov, P2, N2. reflexivity.
  - apply prov_some in H as [[[a Ha]|[b Hb]] ->].
    + rewrite Ha. cbn. pose proof (P3 _ _ Ha). destruct (prov n !! i) as [b|] eqn:Hb; cbn; [pose proof (N3 _ _ Hb)|]; nia.
    + rewrite Hb. cbn. pose proof (N3 _ _ Hb). destruct (prov p !! i) as [a|] eqn:Ha; cbn; [pose proof (P3 _ _ Ha)|]; nia.
  - apply prov_some in H as [[[a Ha]|[b Hb]] _]; [by destruct (P3 _ _ Ha)|by destruct (N3 _ _ Hb)].
Qed.

Lemma in_eliminate v rows r : In r (eliminate v rows) <->
  (In r rows /\ coeff (re r) v = 0%Z) \/
  exists p n, In p rows /\ In n rows /\ (0 < coeff (re p) v)%Z /\ (coeff (re n) v < 0)%Z /\ r = pair_row v p n.
Proof.
  unfold eliminate. rewrite in_app_iff, filter_In, Z.eqb_eq, in_flat_map. split.
  - intros [H|(p & Hp & H)]; [by left|right]. apply filter_In in Hp as [Hp Hc]. apply in_map_iff in H as (n & <- & Hn).
    apply filter_In in Hn as [Hn Hc']. apply Z.ltb_lt in Hc, Hc'. by exists p, n.
  - intros [H|(p & n & Hp & Hn & Hc & Hc' & ->)]; [by left|right]. exists p. split.
    + apply filter_In. split; [done|by apply Z.ltb_lt].
    + apply in_map, filter_In. split; [done|by apply Z.ltb_lt].
Qed.

Definition good (cs : list linexpr) (r : row) : Prop := cert cs r /\ pruned (re r).
Lemma good_eliminate cs v rows : (forall r, In r rows -> good cs r) -> forall r, In r (eliminate v rows) -> good cs r.
Proof.
  intros H r Hr. apply in_eliminate in Hr as [[Hr _]|(p & n & Hp & Hn & Hc & Hc' & ->)]; [by apply H|].
  split; [apply cert_pair; try done; by apply H|apply pruned_add].
Qed.
Lemma contradiction_some rows m : contradiction rows = Some m ->
  exists r, In r rows /\ coeffs (re r) = ∅ /\ (0 < const (re r))%Z /\ m = prov r.
Proof.
  unfold contradiction. destruct (List.find is_contradiction rows) as [r|] eqn:E; [|done]. intros [= <-].
  apply find_some in E as [Hr E]. unfold is_contradiction in E. apply andb_true_iff in E as [E1 E2].
  apply is_constant_spec in E1. apply Z.ltb_lt in E2. by exists r.
Qed.
Lemma contradiction_none rows r : contradiction rows = None -> In r rows -> coeffs (re r) = ∅ -> (const (re r) <= 0)%Z.
Proof.
  unfold contradiction. destruct (List.find is_contradiction rows) as [|] eqn:E; [done|]. intros _ Hr Hc.
  pose proof (find_none _ _ E _ Hr) as H. unfold is_contradiction in H. apply is_constant_spec in Hc. rewrite Hc in H. cbn in H.
  apply Z.ltb_ge in H. done.
Qed.
Lemma start_rows_in cs : forall i r, In r (start_rows i cs) -> exists j c, cs !! j = Some c /\ r = Row c {[(i + j)%nat := 1%Z]}.
Proof.
  induction cs as [|c cs IH]; intros i r H; cbn in H; [done|]. destruct H as [<-|H].
  - exists 0%nat, c. by rewrite Nat.add_0_r.
  - apply IH in H as (j & d & Hj & ->). exists (S j), d. split; [done|]. by replace (S i + j)%nat with (i + S j)%nat by lia.
Qed.
Lemma start_rows_has cs c : forall i, In c cs -> exists r, In r (start_rows i cs) /\ re r = c.
Proof.
  induction cs as [|d cs IH]; intros i H; [done|]. destruct H as [<-|H]; cbn.
  - exists (Row d {[i := 1%Z]}). split; [by left|done].
  - destruct (IH (S i) H) as (r & Hr & E). exists r. split; [by right|done].
Qed.
Lemma good_start cs : Forall pruned cs -> forall r, In r (start_rows 0 cs) -> good cs r.
Proof.
  intros Hp r Hr. apply start_rows_in in Hr as (j & c & Hj & ->). cbn [Nat.add]. split.
  - repeat split; cbn [re prov].
    + intros x. symmetry. exact (csum_single cs (fun c => coeff c x) 0 j c Hj).
    + symmetry. exact (csum_single cs const 0 j c Hj).
    + cbn [prov] in H. apply lookup_singleton_Some in H as [_ <-]. lia.
    + cbn [prov] in H. apply lookup_singleton_Some in H as [<- _]. by eapply lookup_lt_Some.
  - eapply Forall_lookup_1 in Hp; [|exact Hj]. done.
Qed.

(** What a returned certificate is. *)
Definition certified (cs : list linexpr) (m : gmap nat Z) : Prop :=
  exists r, good cs r /\ coeffs (re r) = ∅ /\ (0 < const (re r))%Z /\ m = prov r.
Lemma eliminate_all_sound cs vs : forall rows m, (forall r, In r rows -> good cs r) -> eliminate_all vs rows = Some m -> certified cs m.
Proof.
  induction vs as [|v vs IH]; intros rows m Hg H; cbn in H.
  - apply contradiction_some in H as (r & Hr & H1 & H2 & ->). exists r. split; [by apply Hg|done].
  - assert (Hg' : forall r, In r (eliminate v rows) -> good cs r) by (by apply good_eliminate).
    destruct (contradiction (eliminate v rows)) as [p|] eqn:E.
    + injection H as ->. apply contradiction_some in E as (r & Hr & H1 & H2 & ->). exists r. split; [by apply Hg'|done].
    + by eapply IH.
Qed.
Lemma find_sound cs m : Forall pruned cs -> find_farkas cs = Some m -> certified cs m.
Proof.
  intros Hp H. unfold find_farkas in H. pose proof (good_start cs Hp) as Hg.
  destruct (contradiction (start_rows 0 cs)) as [p|] eqn:E.
  - injection H as ->. apply contradiction_some in E as (r & Hr & H1 & H2 & ->). exists r. split; [by apply Hg|done].
  - by eapply eliminate_all_sound.
Qed.

(** [combine] adds up what the certificate says. *)
Definition cstep (cs : list linexpr) (m : gmap nat Z) (acc : linexpr) (i : nat) : linexpr :=
  match m !! i, cs !! i with Some k, Some c => le_add acc (le_scale c k) | _, _ => acc end.
Lemma combine_fold cs m f : (f = const \/ exists x, f = fun c => coeff c x) -> forall l pre acc, cs = pre ++ l ->
  f (fold_left (cstep cs m) (seq (length pre) (length l)) acc) = (f acc + csum (length pre) l m f)%Z.
Proof.
  intros Hf. induction l as [|c l IH]; intros pre acc E; cbn [length seq fold_left csum]; [lia|].
  specialize (IH (pre ++ [c]) (cstep cs m acc (length pre))). rewrite app_length in IH. cbn in IH.
  rewrite Nat.add_1_r in IH. rewrite IH by (rewrite E, <- app_assoc; done).
  assert (Hl : cs !! length pre = Some c) by (rewrite E, lookup_app_r, Nat.sub_diag by lia; done).
  unfold cstep at 1. rewrite Hl. destruct (m !! length pre) as [k|]; cbn [default]; [|lia].
  assert (Ha : f (le_add acc (le_scale c k)) = (f acc + f c * k)%Z).
  { destruct Hf as [->|(x & ->)]; [done|]. by rewrite coeff_add, coeff_scale. }
  rewrite Ha. cbn. lia.
Qed.
Lemma combine_some cs m : (forall i k, m !! i = Some k -> (i < length cs)%nat) -> exists e, combine cs m = Some e /\
  pruned e /\ const e = csum 0 cs m const /\ forall x, coeff e x = csum 0 cs m (fun c => coeff c x).
Proof.
  intros Hm. unfold combine.
  assert (Hb : forallb (fun i => (i <? length cs)%nat) ((map_to_list m).*1) = true).
  { apply forallb_forall. intros i Hi. apply elem_of_list_In, elem_of_list_fmap in Hi as ([j k] & -> & Hj).
    apply elem_of_map_to_list in Hj. cbn. apply Nat.ltb_lt. eauto. }
  rewrite Hb. eexists. split; [done|]. fold (cstep cs m). repeat split.
  - assert (H : forall l acc, pruned acc -> pruned (fold_left (cstep cs m) l acc)).
    { induction l as [|i l IH]; intros acc Ha; cbn; [done|]. apply IH. unfold cstep.
      destruct (m !! i); [|done]. destruct (cs !! i); [|done]. apply pruned_add. }
    apply H, pruned_constant.
  - rewrite (combine_fold cs m const (or_introl eq_refl) cs [] _ eq_refl). cbn. lia.
  - intros x. rewrite (combine_fold cs m (fun c => coeff c x) (or_intror (ex_intro _ x eq_refl)) cs [] _ eq_refl). rewrite coeff_constant. cbn [length]. lia.
Qed.

(** A weighted sum of values. *)
Fixpoint wsum (i : nat) (cs : list linexpr) (m : gmap nat Z) : linexpr :=
  match cs with [] => le_constant 0 | c :: cs => le_add (le_scale c (default 0%Z (m !! i))) (wsum (S i) cs m) end.
Lemma wsum_const m cs : forall i, const (wsum i cs m) = csum i cs m const.
Proof. induction cs as [|c cs IH]; intros i; cbn [wsum csum]; [done|]. cbn [le_add le_scale const]. rewrite IH. ring. Qed.
Lemma wsum_coeff m cs x : forall i, coeff (wsum i cs m) x = csum i cs m (fun c => coeff c x).
Proof.
  induction cs as [|c cs IH]; intros i; cbn [wsum csum]; [done|]. rewrite coeff_add, coeff_scale, IH. ring.
Qed.
Lemma wsum_nonpos m w cs : forall i, (forall c, In c cs -> fval c w <= 0) -> (forall j k, m !! j = Some k -> (0 < k)%Z) ->
  fval (wsum i cs m) w <= 0.
Proof.
  induction cs as [|c cs IH]; intros i Hs Hm; cbn [wsum].
  - rewrite fval_constant by done. cbn [const le_constant]. rewrite q_of_Z_0. apply Qcle_refl.
  - rewrite fval_add, fval_scale. assert (H1 : fval (wsum (S i) cs m) w <= 0) by (apply IH; [|done]; intros; apply Hs; by right).
    assert (H2 : fval c w <= 0) by (apply Hs; by left).
    assert (H3 : 0 <= q_of_Z (default 0%Z (m !! i))).
    { change (Q2Qc 0) with (q_of_Z 0). apply q_of_Z_le. destruct (m !! i) as [k|] eqn:E; cbn; [|lia]. pose proof (Hm _ _ E). lia. }
    pose proof (Qcmult_le_compat_r _ _ _ H2 H3) as H4. rewrite Qcmult_0_l in H4. rewrite Qcmult_comm in H4. qlra.
Qed.
Lemma fval_nonpos cs w m e : (forall c, In c cs -> fval c w <= 0) -> (forall j k, m !! j = Some k -> (0 < k)%Z) ->
  const e = csum 0 cs m const -> (forall x, coeff e x = csum 0 cs m (fun c => coeff c x)) -> fval e w <= 0.
Proof.
  intros Hs Hm Hc Hx. rewrite (fval_lin e (wsum 0 cs m) (wsum 0 cs m) 1 0), q_of_Z_0, q_of_Z_1.
  - rewrite Qcmult_1_l, Qcmult_0_l, Qcplus_0_r. by apply wsum_nonpos.
  - intros x. rewrite wsum_coeff, Hx. ring.
  - rewrite wsum_const, Hc. ring.
Qed.

(** Completeness of one elimination. *)
Lemma coeff_pair v p n : coeff (re (pair_row v p n)) v = 0%Z.
Proof. unfold pair_row. cbn [re]. rewrite coeff_add, !coeff_scale. ring. Qed.
Lemma fval_zero e v t w : coeff e v = 0%Z -> fval e (fupd w v t) = fval e w.
Proof. intros H. rewrite fval_upd, (fval_split e v w), H, q_of_Z_0. ring. Qed.
Lemma qpos c : (0 < c)%Z -> 0 < q_of_Z c.
Proof. intros H. change (Q2Qc 0) with (q_of_Z 0). by apply q_of_Z_lt. Qed.
Lemma upper_bound c t r : (0 < c)%Z -> t <= - r / q_of_Z c -> q_of_Z c * t + r <= 0.
Proof.
  intros Hc H. pose proof (qpos c Hc) as Hp. pose proof (Qcmult_le_compat_r _ _ _ H (Qclt_le_weak _ _ Hp)) as H1.
  replace (- r / q_of_Z c * q_of_Z c) with (- r) in H1.
  - rewrite Qcmult_comm in H1. qlra.
  - field. intros E. rewrite E in Hp. by apply Qclt_not_eq in Hp.
Qed.
Lemma lower_bound c t r : (0 < c)%Z -> r / q_of_Z c <= t -> - q_of_Z c * t + r <= 0.
Proof.
  intros Hc H. pose proof (qpos c Hc) as Hp. pose proof (Qcmult_le_compat_r _ _ _ H (Qclt_le_weak _ _ Hp)) as H1.
  replace (r / q_of_Z c * q_of_Z c) with r in H1.
  - replace (- q_of_Z c * t) with (- (t * q_of_Z c)) by ring. qlra.
  - field. intros E. rewrite E in Hp. by apply Qclt_not_eq in Hp.
Qed.
Lemma cross_bound c d a b : (0 < c)%Z -> (0 < d)%Z -> q_of_Z d * a + q_of_Z c * b <= 0 -> b / q_of_Z d <= - a / q_of_Z c.
Proof.
  intros Hc Hd H. pose proof (qpos c Hc) as Hp. pose proof (qpos d Hd) as Hq.
  apply (Qcmult_lt_0_le_reg_r _ _ (q_of_Z c * q_of_Z d)).
  - rewrite <- q_of_Z_mul. apply qpos. lia.
  - replace (b / q_of_Z d * (q_of_Z c * q_of_Z d)) with (q_of_Z c * b).
    + replace (- a / q_of_Z c * (q_of_Z c * q_of_Z d)) with (- (q_of_Z d * a)); [qlra|].
      field. intros E. rewrite E in Hp. by apply Qclt_not_eq in Hp.
    + field. intros E. rewrite E in Hq. by apply Qclt_not_eq in Hq.
Qed.
Lemma eliminate_complete v rows w : (forall r, In r (eliminate v rows) -> fval (re r) w <= 0) ->
  exists t, forall r, In r rows -> fval (re r) (fupd w v t) <= 0.
Proof.
  intros Hs. pose (base := fun r : row => fval (re r) (fupd w v 0)).
  destruct (common_point (map (fun n => (base n / q_of_Z (- coeff (re n) v), false)) (List.filter (fun r => coeff (re r) v <? 0)%Z rows))
                         (map (fun p => (- base p / q_of_Z (coeff (re p) v), false)) (List.filter (fun r => 0 <? coeff (re r) v)%Z rows)))
    as (t & Hl & Hh).
  - intros l a h b H1 H2. apply in_map_iff in H1 as (n & [= <- <-] & Hn). apply in_map_iff in H2 as (p & [= <- <-] & Hp).
    apply filter_In in Hn as [Hn Hnc]. apply filter_In in Hp as [Hp Hpc]. apply Z.ltb_lt in Hnc, Hpc. cbn.
    apply cross_bound; [lia|lia|].
    assert (H : fval (re (pair_row v p n)) w <= 0).
    { apply Hs, in_eliminate. right. by exists p, n. }
    rewrite <- (fval_zero _ v 0) in H by apply coeff_pair. unfold pair_row in H. cbn [re] in H. rewrite fval_add, !fval_scale in H. exact H.
  - exists t. intros r Hr. destruct (Z.lt_trichotomy (coeff (re r) v) 0) as [H|[H|H]].
    + rewrite fval_upd. replace (coeff (re r) v) with (- - coeff (re r) v)%Z by lia. rewrite q_of_Z_opp. apply lower_bound; [lia|].
      apply (Hl _ false). apply in_map_iff. exists r. split; [done|]. apply filter_In. split; [done|by apply Z.ltb_lt].
    + rewrite fval_zero by done. apply Hs, in_eliminate. by left.
    + rewrite fval_upd. apply upper_bound; [lia|].
      apply (Hh _ false). apply in_map_iff. exists r. split; [done|]. apply filter_In. split; [done|by apply Z.ltb_lt].
Qed.

Definition inside (vs : list string) (r : row) : Prop := pruned (re r) /\ forall x, coeff (re r) x <> 0%Z -> In x vs.
Lemma inside_eliminate v vs rows : (forall r, In r rows -> inside (v :: vs) r) -> forall r, In r (eliminate v rows) -> inside vs r.
Proof.
  intros H r Hr. apply in_eliminate in Hr as [[Hr Hc]|(p & n & Hp & Hn & Hc & Hc' & ->)].
  - destruct (H _ Hr) as [H1 H2]. split; [done|]. intros x Hx. destruct (H2 x Hx) as [<-|]; done.
  - split; [apply pruned_add|]. intros x Hx. destruct (H _ Hp) as [_ H2], (H _ Hn) as [_ H3].
    assert (Hin : In x (v :: vs)); [|destruct Hin as [<-|]; [by rewrite coeff_pair in Hx|done]].
    unfold pair_row in Hx. cbn [re] in Hx. rewrite coeff_add, !coeff_scale in Hx.
    destruct (Z.eq_dec (coeff (re p) x) 0%Z) as [E|E]; [|by apply H2]. apply H3. intros E'. apply Hx. rewrite E, E'. ring.
Qed.
Lemma eliminate_all_complete vs : forall rows, (forall r, In r rows -> inside vs r) -> contradiction rows = None ->
  eliminate_all vs rows = None -> exists w, forall r, In r rows -> fval (re r) w <= 0.
Proof.
  induction vs as [|v vs IH]; intros rows Hi Hn H; cbn in H.
  - exists (fun _ => Q2Qc 0). intros r Hr. destruct (Hi _ Hr) as [H1 H2].
    assert (He : coeffs (re r) = ∅).
    { apply pruned_all_zero; [done|]. intros x. destruct (Z.eq_dec (coeff (re r) x) 0%Z) as [|E]; [done|]. by destruct (H2 x E). }
    rewrite fval_constant by done. change (Q2Qc 0) with (q_of_Z 0). apply q_of_Z_le. by eapply contradiction_none.
  - destruct (contradiction (eliminate v rows)) as [p|] eqn:E; [done|].
    destruct (IH (eliminate v rows)) as (w & Hw); [by apply inside_eliminate|done|done|].
    destruct (eliminate_complete v rows w Hw) as (t & Ht). by exists (fupd w v t).
Qed.
Lemma in_insert_var x y l : In y (insert_var x l) <-> y = x \/ In y l.
Proof.
  induction l as [|z l IH]; cbn; [naive_solver|]. destruct (String.eqb_spec x z) as [->|Hn]; cbn; [naive_solver|].
  destruct (String.ltb x z); cbn; [naive_solver|]. rewrite IH. naive_solver.
Qed.
Lemma in_all_vars rows r x : In r rows -> is_Some (coeffs (re r) !! x) -> In x (all_vars rows).
Proof.
  intros Hr [c Hc]. unfold all_vars.
  assert (H : forall l, In x l -> In x (fold_right insert_var [] l)).
  { induction l as [|y l IH]; [done|]. cbn. rewrite in_insert_var. intros [->|H]; auto. }
  apply H, in_flat_map. exists r. split; [done|]. apply elem_of_list_In, elem_of_list_fmap. exists (x, c). split; [done|].
  by apply elem_of_map_to_list.
Qed.
Lemma find_complete cs : Forall pruned cs -> find_farkas cs = None -> exists w, forall c, In c cs -> fval c w <= 0.
Proof.
  intros Hp H. unfold find_farkas in H. destruct (contradiction (start_rows 0 cs)) as [p|] eqn:E; [done|].
  destruct (eliminate_all_complete (all_vars (start_rows 0 cs)) (start_rows 0 cs)) as (w & Hw); [|done|done|].
  - intros r Hr. assert (Hpr : pruned (re r)) by (by apply (good_start cs Hp)). split; [done|]. intros x Hx.
    apply (in_all_vars _ r); [done|]. by apply coeff_some.
  - exists w. intros c Hc. destruct (start_rows_has cs c 0 Hc) as (r & Hr & <-). by apply Hw.
Qed.
