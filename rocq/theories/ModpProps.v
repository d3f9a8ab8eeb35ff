(** C112: systems of congruences modulo a prime are decided exactly, with checkable certificates. *)
From Coq Require Import List ZArith Znumtheory Bool Lia Setoid Morphisms.
From Verif Require Import ModpModel ModpFermat ModpProofs ModpSolve.
Import ListNotations.
Open Scope Z_scope.

(** [inv] is the inverse modulo a prime, for every non-zero residue. *)
Theorem C112_inverse p a : prime p -> 0 < a < p -> (a * inv a p) mod p = 1 /\ 0 <= inv a p < p.
Proof.
  intros Hp Ha. pose proof (prime_ge_2 p Hp). split.
  - pose proof (inv_c p Hp a Ha) as H'. apply cong_iff in H'; [| lia]. rewrite H'. apply Z.mod_1_l. lia.
  - unfold inv, powm. destruct (p - 2) as [| e | e] eqn:E; try (apply Z.mod_pos_bound; lia). assert (forall r b, 0 <= pow_bits e r b p < p) as G; [| apply G].
    clear -H. induction e as [e IH | e IH |]; intros r b; cbn [pow_bits]; [apply IH | apply IH | apply Z.mod_pos_bound; lia].
Qed.

(** The re-check of an assignment is the system itself. *)
Lemma lhs_spec p e x : 0 < p -> 0 <= lhs_of e x p < p /\ cong p (lhs_of e x p) (lin (coeffs e) (get x)).
Proof.
  intros P. unfold lhs_of. assert (forall cs acc, 0 <= acc < p -> 0 <= fold_left (fun acc va => madd acc (mmul (snd va) (get x (fst va)) p) p) cs acc < p /\
    cong p (fold_left (fun acc va => madd acc (mmul (snd va) (get x (fst va)) p) p) cs acc) (acc + lin cs (get x))) as G.
  { induction cs as [| va cs IH]; intros acc R; cbn [fold_left lin fold_right]; [split; [exact R |]; rewrite Z.add_0_r; reflexivity |]. fold (lin cs (get x)).
    destruct (IH (madd acc (mmul (snd va) (get x (fst va)) p) p)) as [A B]; [apply Z.mod_pos_bound, P |]. split; [exact A |]. rewrite B, madd_c, mmul_c, Z.add_assoc. reflexivity. }
  destruct (G (coeffs e) 0) as [A B]; [lia |]. split; [exact A |]. rewrite B, Z.add_0_l. reflexivity.
Qed.
Theorem C112_satisfies eqs x p : 0 < p -> satisfies eqs x p = true <-> forall e, In e eqs -> (p | lin (coeffs e) (get x) - rhs e).
Proof.
  intros P. unfold satisfies. rewrite forallb_forall. split; intros H e He; specialize (H e He); destruct (lhs_spec p e x P) as [R C].
  - apply Z.eqb_eq in H. rewrite H in C. rewrite cong_mod in C. symmetry in C. exact C.
  - apply Z.eqb_eq. assert (cong p (lhs_of e x p) (rhs e)) as K by (rewrite C; exact H). apply cong_iff in K; [| exact P]. rewrite Z.mod_small in K by exact R. exact K.
Qed.

(** An accepted refutation excludes every assignment, for every modulus. *)
Theorem C112_refutation_sound eqs nv p combo : 0 < p -> in_vars nv eqs -> is_refutation eqs nv p combo = true -> forall x, satisfies eqs x p = false.
Proof.
  intros P R H x. destruct (satisfies eqs x p) eqn:E; [| reflexivity]. exfalso. apply (refutation_sound eqs nv p combo (get x) P R H). apply C112_satisfies; assumption.
Qed.

Definition prov_ok (p : Z) (eqs : list equation) (nv m : nat) (r : row) : Prop := forall x, cong p (resid nv x r) (zsum m (fun k => at_ r (CP k) * eres (eqat eqs k) x)).
Lemma prov_closed p (Hp : prime p) eqs nv m : closed p nv m (prov_ok p eqs nv m).
Proof.
  unfold prov_ok. split.
  - intros f r W H x. rewrite resid_scale by exact W. rewrite (H x), <- zsum_scal. apply zsum_eqm. intros k _. rewrite scale_at by exact W. match goal with |- cong _ ?a ?b => replace a with b by lia end. reflexivity.
  - intros f a r Wa W Ha H x. rewrite resid_reduce by assumption. rewrite (H x), (Ha x), <- zsum_scal. transitivity (zsum m (fun k => at_ r (CP k) * eres (eqat eqs k) x + -1 * (f * (at_ a (CP k) * eres (eqat eqs k) x)))).
    + rewrite zsum_add, (zsum_scal m (-1)). match goal with |- cong _ ?a ?b => replace a with b by lia end. reflexivity.
    + apply zsum_eqm. intros k _. rewrite reduce_at by assumption. match goal with |- cong _ ?a ?b => replace a with b by lia end. reflexivity.
Qed.
Lemma bad_refutes p (Hp : prime p) eqs nv r : in_vars nv eqs -> wf p nv (length eqs) r -> prov_ok p eqs nv (length eqs) r -> bad_row r = true -> is_refutation eqs nv p (combo_of r) = true.
Proof.
  intros R W P B. pose proof (ppos p Hp) as Pp. set (m := length eqs) in *. assert (forall x, cong p (csum (combo_of r) (fun i => eres (eqat eqs i) x)) (- rr r)) as S.
  { intros x. unfold combo_of. rewrite csum_filter, csum_list. destruct W as (L1 & L2 & Rg). rewrite L2. destruct (bad_resid p nv m r x) as (Br & _); [split; [exact L1 | split; assumption] | exact B |]. rewrite <- Br. rewrite (P x). cbn [at_ Nat.add]. reflexivity. }
  destruct (bad_resid p nv m r (fun _ => 0) W B) as (_ & Nz & _). assert (0 <= rr r < p) as Rr by (destruct W as (_ & _ & Rg); exact (Rg CR)).
  unfold is_refutation. destruct (combo_of r) as [| c cb] eqn:Ec.
  { exfalso. specialize (S (fun _ => 0)). cbn in S. destruct S as [k K]. assert (k = 0) by nia. lia. }
  rewrite <- Ec in *. clear c cb Ec. destruct (sum_combo_total eqs nv p (combo_of r)) with (l := repeat 0 nv) (r := 0) as (l & s & E).
  { intros im Him. unfold combo_of in Him. apply filter_In in Him as [Him _]. destruct im as [i a]. apply in_combine_l in Him. apply in_seq in Him. destruct W as (_ & L2 & _). cbn. fold m. lia. }
  rewrite E. destruct (sum_combo_spec eqs nv p (combo_of r) R _ _ _ _ (repeat_length 0 nv) E) as [Ll Sp].
  destruct (sum_combo_rng eqs nv p (combo_of r) Pp _ _ _ _ (fun v => eq_ind_r (fun z => 0 <= z < p) (conj (Z.le_refl 0) Pp) (get_repeat nv v)) (conj (Z.le_refl 0) Pp) E) as [Rl Rs].
  assert (s = rr r) as Es.
  { apply (eqm_small p); [exact Rs | exact Rr |]. specialize (Sp (fun _ => 0)). rewrite !zsum_const0, S in Sp. destruct Sp as [k K]. exists (- k). lia. }
  apply andb_true_iff. split; [| apply negb_true_iff, Z.eqb_neq; congruence]. apply all_zero_get. intros v. destruct (Nat.lt_ge_cases v nv) as [Lv | Lv]; [| apply nth_overflow; lia].
  apply (eqm_small p); [apply Rl | lia |]. specialize (Sp (unit_at v)). rewrite !zsum_unit, S, get_repeat in Sp by exact Lv. rewrite Es in Sp. destruct Sp as [k K]. exists k. lia.
Qed.

(** The solver decides every system modulo a prime: an assignment that passes the re-check, or a
    combination that passes the other re-check (and then there is no solution). *)
Theorem C112_solve eqs nv p : prime p -> in_vars nv eqs ->
  match solve eqs nv p with
  | Sat x => length x = nv /\ (forall a, In a x -> 0 <= a < p) /\ satisfies eqs x p = true
  | Unsat combo => is_refutation eqs nv p combo = true /\ forall x, satisfies eqs x p = false
  end.
Proof.
  intros Hp R. pose proof (ppos p Hp) as Pp. unfold solve. destruct (eliminate _ _ _ _ _ _) as [rows pivots] eqn:E. destruct (elim_all p Hp eqs nv _ rows pivots R E) as (L & W & Ec & S & C).
  assert (all_rows (prov_ok p eqs nv (length eqs)) rows) as Pr.
  { apply C; [apply prov_closed, Hp |]. intros i Hi. rewrite load_len in Hi. rewrite load_at by exact Hi. intros x. rewrite load_resid by (intros va Hva; apply (R (eqat eqs i)); [apply eqat_in, Hi | exact Hva]).
    rewrite (zsum_single _ _ i Hi).
    - cbn [at_ load rp fst]. rewrite get_set, Nat.eqb_refl, repeat_length. apply Nat.ltb_lt in Hi. rewrite Hi. cbn [andb]. rewrite cong_mod, Z.mul_1_l. reflexivity.
    - intros j _ N. cbn [at_ load rp fst]. rewrite get_set, get_repeat. apply not_eq_sym, Nat.eqb_neq in N. rewrite N. cbn [andb]. lia. }
  pose proof (find_spec bad_row rows) as F. destruct (find bad_row rows) as [r |] eqn:Fd.
  - destruct F as [Hr B]. destruct (In_nth rows r dflt Hr) as (i & Hi & Er). assert (is_refutation eqs nv p (combo_of r) = true) as T.
    { apply bad_refutes; [exact Hp | exact R | rewrite <- Er; apply W, Hi | rewrite <- Er; apply Pr, Hi | exact B]. }
    split; [exact T | apply (C112_refutation_sound eqs nv p (combo_of r) Pp R T)].
  - split; [apply particular_len |]. split.
    + intros a Ha. apply In_nth with (d := 0) in Ha as (v & _ & <-). apply (particular_rng p Hp nv (length eqs) rows pivots W v).
    + apply C112_satisfies; [exact Pp |]. apply (proj1 (S (get (particular rows pivots nv)))). apply (particular_solves p nv (length eqs) rows pivots W Ec Fd).
Qed.
(** In particular the verdict is exact. *)
Theorem C112_exact eqs nv p : prime p -> in_vars nv eqs -> (exists x, solve eqs nv p = Sat x) <-> exists x, satisfies eqs x p = true.
Proof.
  intros Hp R. pose proof (C112_solve eqs nv p Hp R) as H. destruct (solve eqs nv p) as [x | combo].
  - split; intros _; [exists x; apply H | exists x; reflexivity].
  - split; [intros [x Hx]; discriminate | intros [x Hx]; destruct H as [_ H]; rewrite H in Hx; discriminate].
Qed.

(** The whole solution space: [None] exactly for an inconsistent system; otherwise [enumerate]
    lists every solution over 0..p exactly once, and [count] is their number. *)
Theorem C112_space eqs nv p : prime p -> in_vars nv eqs ->
  match solve_space eqs nv p with
  | None => forall x, satisfies eqs x p = false
  | Some s =>
      NoDup (enumerate s nv p) /\ Z.of_nat (length (enumerate s nv p)) = count s p /\
      forall x, In x (enumerate s nv p) <-> length x = nv /\ (forall a, In a x -> 0 <= a < p) /\ satisfies eqs x p = true
  end.
Proof.
  intros Hp R. pose proof (ppos p Hp) as Pp. unfold solve_space. destruct (eliminate _ _ _ _ _ _) as [rows pivots] eqn:E. destruct (elim_all p Hp eqs nv _ rows pivots R E) as (L & W & Ec & S & _).
  pose proof (find_spec bad_row rows) as F. destruct (find bad_row rows) as [r |] eqn:Fd.
  { intros x. destruct (satisfies eqs x p) eqn:Sx; [| reflexivity]. exfalso. rewrite C112_satisfies in Sx by exact Pp. destruct F as [Hr B]. destruct (In_nth rows r dflt Hr) as (i & Hi & Er).
    apply (bad_resid p nv 0 r (get x)); [rewrite <- Er; apply W, Hi | exact B |]. rewrite <- Er. exact (proj2 (S (get x)) Sx i Hi). }
  clear F. set (fs := free_cols pivots nv). set (s := Space _ _). assert (count s p = p ^ Z.of_nat (length fs)) as Ct by (unfold count, s; cbn [sp_kernel]; rewrite map_length; reflexivity).
  assert (0 <= count s p) as Cp by (rewrite Ct; apply Z.pow_nonneg; lia).
  assert (Lx : length (particular rows pivots nv) = nv) by apply particular_len.
  pose proof (particular_solves p nv 0 rows pivots W Ec Fd) as Sol0. pose proof (free_nodup nv pivots) as Nd. fold fs in Nd.
  assert (Ff : forall f, In f fs -> (f < nv)%nat /\ ~ In f pivots) by (intros f; apply free_iff).
  assert (Dec : forall code, let x := decode nv p code (particular rows pivots nv) (map (fun f => kernel_vector rows pivots nv f p) fs) in
    length x = nv /\ (forall v, 0 <= get x v < p) /\ (forall f, In f fs -> get x f = digit p code fs f) /\ all_rows (rsolves p nv (get x)) rows).
  { intros code x. destruct (decode_spec p Hp nv rows pivots fs code (particular rows pivots nv) Lx) as (L2 & V2 & R2). fold x in L2, V2, R2.
    specialize (R2 (particular_rng p Hp nv 0 rows pivots W)). split; [exact L2 |]. split; [exact R2 |]. split.
    - intros f Hf. destruct (Ff f Hf) as [Hfv Hfp]. apply (eqm_small p); [apply R2 | |].
      + clear -Pp. revert code. induction fs as [| g fs' IH]; intros code; cbn [digit]; [lia |]. destruct (Nat.eqb g f); [apply Z.mod_pos_bound, Pp | apply IH].
      + rewrite (V2 f Hfv). rewrite (dsum_digit p nv rows pivots fs f) by (try assumption; intros g Hg; apply Ff, Hg). fold (X0 nv rows pivots f). rewrite X0_other by exact Hfp. rewrite Z.add_0_l. reflexivity.
    - intros i Hi. apply (rsolves_dotr p nv rows). transitivity (dotr nv rows (X0 nv rows pivots) i + dotr nv rows (dsum p nv rows pivots code fs) i).
      + unfold dotr. rewrite <- zsum_add. apply zsum_eqm. intros v Hv. rewrite (V2 v Hv). fold (X0 nv rows pivots v). rewrite Z.mul_add_distr_l. reflexivity.
      + rewrite (dsum_kernel p nv rows pivots Ec fs Ff code i Hi). rewrite Z.add_0_r. apply (rsolves_dotr p nv rows), Sol0, Hi. }
  assert (Len : Z.of_nat (length (enumerate s nv p)) = count s p) by (unfold enumerate; rewrite map_length, seq_length; lia).
  split; [| split; [exact Len |]].
  - unfold enumerate. rewrite Ct. assert (forall l, NoDup l -> (forall c, In c l -> (c < Z.to_nat (p ^ Z.of_nat (length fs)))%nat) -> NoDup (map (fun code => decode nv p (Z.of_nat code) (sp_particular s) (sp_kernel s)) l)) as G.
    { induction l as [| c l IH]; intros N Rg; cbn [map]; [constructor |]. inversion N as [| ? ? N1 N2]; subst. constructor; [| apply IH; [exact N2 | intros d Hd; apply Rg; right; exact Hd]].
      intros H. apply in_map_iff in H as (d & Ed & Hd). assert (d = c) as ->; [| contradiction]. apply Nat2Z.inj. assert (d < Z.to_nat (p ^ Z.of_nat (length fs)))%nat by (apply Rg; right; exact Hd). assert (c < Z.to_nat (p ^ Z.of_nat (length fs)))%nat by (apply Rg; left; reflexivity).
      apply (digit_inj p Hp fs Nd); [lia | lia |]. intros g Hg. destruct (Dec (Z.of_nat d)) as (_ & _ & D1 & _). destruct (Dec (Z.of_nat c)) as (_ & _ & D2 & _). rewrite <- (D1 g Hg), <- (D2 g Hg). unfold s in Ed. cbn [sp_particular sp_kernel] in Ed. rewrite Ed. reflexivity. }
    apply G; [apply seq_NoDup |]. intros c Hc. apply in_seq in Hc. lia.
  - intros x. unfold enumerate. rewrite in_map_iff. split.
    + intros (c & <- & Hc). destruct (Dec (Z.of_nat c)) as (D0 & D1 & _ & D3). unfold s. cbn [sp_particular sp_kernel]. split; [exact D0 |]. split; [intros a Ha; apply In_nth with (d := 0) in Ha as (v & _ & <-); apply D1 |].
      apply C112_satisfies; [exact Pp |]. apply (proj1 (S _)), D3.
    + intros (Lxx & Rx & Sx). assert (forall v, 0 <= get x v < p) as Rg.
      { intros v. destruct (Nat.lt_ge_cases v (length x)) as [Lv | Lv]; [apply Rx, nth_In, Lv |]. unfold get. rewrite nth_overflow by exact Lv. lia. }
      destruct (digit_surj p Hp fs (get x) Nd Rg) as (c & Hc & Dg). exists (Z.to_nat c). split; [| apply in_seq; rewrite Ct; lia]. rewrite Z2Nat.id by lia. unfold s. cbn [sp_particular sp_kernel].
      destruct (Dec c) as (D0 & D1 & D2 & D3). apply get_ext; [lia |]. rewrite D0. intros v Hv. apply (eqm_small p); [apply D1 | apply Rg |].
      apply (agree_free p nv rows pivots Ec); [exact D3 | apply S, C112_satisfies; assumption | | exact Hv]. intros u Hu Nu. assert (In u fs) as Hu' by (apply free_iff; split; assumption). rewrite (D2 u Hu'), (Dg u Hu'). reflexivity.
Qed.

(** The cyclic difference system is consistent exactly when the prime divides the length. *)
Lemma cycle_in_vars n p : (0 < n)%nat -> in_vars n (cycle_system n p).
Proof.
  intros Hn e va He Hva. unfold cycle_system in He. apply in_map_iff in He as (i & <- & Hi). apply in_seq in Hi. cbn [coeffs In] in Hva. destruct Hva as [<- | [<- | []]]; cbn [fst]; [lia | apply Nat.mod_upper_bound; lia].
Qed.
Theorem C112_cycle n p : prime p -> (0 < n)%nat -> (exists x, solve (cycle_system n p) n p = Sat x) <-> (p | Z.of_nat n).
Proof.
  intros Hp Hn. pose proof (ppos p Hp) as Pp. rewrite C112_exact by (try exact Hp; apply cycle_in_vars, Hn).
  assert (forall x, satisfies (cycle_system n p) x p = true <-> forall i, (i < n)%nat -> cong p (get x i - get x (Nat.modulo (i + 1) n)) 1) as Sys.
  { intros x. rewrite C112_satisfies by exact Pp. unfold cycle_system. split.
    - intros H i Hi. specialize (H (Equation [(i, 1); (Nat.modulo (i + 1) n, p - 1)] 1)). destruct H as [k K]; [apply in_map_iff; exists i; split; [reflexivity | apply in_seq; lia] |]. cbn [lin coeffs rhs fold_right fst snd] in K. exists (k - get x (Nat.modulo (i + 1) n)). lia.
    - intros H e He. apply in_map_iff in He as (i & <- & Hi). apply in_seq in Hi. destruct (H i) as [k K]; [lia |]. cbn [lin coeffs rhs fold_right fst snd]. exists (k + get x (Nat.modulo (i + 1) n)). lia. }
  split.
  - intros [x Hx]. pose proof (proj1 (Sys x) Hx) as H. assert (cong p (zsum n (fun i => get x i - get x (Nat.modulo (i + 1) n))) (zsum n (fun _ => 1))) as Q by (apply zsum_eqm; exact H).
    assert (zsum n (fun _ => 1) = Z.of_nat n) as Zn by (clear; induction n as [| n IH]; [reflexivity |]; cbn [zsum]; lia). rewrite Zn in Q.
    assert (zsum n (fun i => get x i - get x (Nat.modulo (i + 1) n)) = 0) as Z0.
    { assert (forall k, (k < n)%nat -> zsum k (fun i => get x i - get x (Nat.modulo (i + 1) n)) = get x 0%nat - get x k) as T.
      { induction k as [| k IH]; intros Hk; [cbn; lia |]. cbn [zsum]. rewrite IH by lia. rewrite Nat.mod_small by lia. replace (k + 1)%nat with (S k) by lia. lia. }
      destruct n as [| n]; [lia |]. cbn [zsum]. rewrite T by lia. replace (n + 1)%nat with (S n) by lia. rewrite Nat.mod_same by lia. lia. }
    rewrite Z0 in Q. symmetry in Q. destruct Q as [k K]. exists k. lia.
  - intros [k K]. exists (map (fun i => - Z.of_nat i) (seq 0 n)). apply Sys. intros i Hi. rewrite !get_map_seq. assert (Nat.modulo (i + 1) n < n)%nat as Lm by (apply Nat.mod_upper_bound; lia). apply Nat.ltb_lt in Lm. rewrite Lm. apply Nat.ltb_lt in Hi as Hi'. rewrite Hi'.
    destruct (Nat.eq_dec (i + 1) n) as [Q | Q]; [rewrite Q, Nat.mod_same by lia; exists (- k); lia | rewrite Nat.mod_small by lia; exists 0; lia].
Qed.

(** A variable beyond [num_vars] is dropped by the solver and by the check of refutations, but not
    by the check of assignments: a solvable system is refuted. *)
Theorem C112_out_of_range_refuted : exists eqs nv p combo x, prime p /\ solve eqs nv p = Unsat combo /\ is_refutation eqs nv p combo = true /\ satisfies eqs x p = true.
Proof. exists [Equation [(1%nat, 1)] 1], 1%nat, 2, [(0%nat, 1)], [0; 1]. split; [exact prime_2 | repeat split; reflexivity]. Qed.
(** For a composite modulus the inverse fails and so does the solver. *)
Theorem C112_composite_refuted : exists eqs nv p x y, in_vars nv eqs /\ solve eqs nv p = Sat x /\ satisfies eqs x p = false /\ satisfies eqs y p = true.
Proof.
  exists [Equation [(0%nat, 5)] 1], 1%nat, 6, [1], [5]. split; [| repeat split; reflexivity]. intros e va [<- | []] [<- | []]. cbn. lia.
Qed.

Example C112_example :
  solve [Equation [(0%nat, 1); (1%nat, 2)] 1; Equation [(0%nat, 2); (1%nat, 1)] 0] 2 5 = Sat [3; 4] /\
  solve [Equation [(0%nat, 1); (1%nat, 2)] 1; Equation [(0%nat, 2); (1%nat, 4)] 0] 2 5 = Unsat [(0%nat, 3); (1%nat, 1)] /\
  is_refutation [Equation [(0%nat, 1); (1%nat, 2)] 1; Equation [(0%nat, 2); (1%nat, 4)] 0] 2 5 [(0%nat, 3); (1%nat, 1)] = true /\
  solve_space [Equation [(0%nat, 1); (1%nat, 2)] 1] 2 3 = Some (Space [1; 0] [[1; 1]]) /\
  enumerate (Space [1; 0] [[1; 1]]) 2 3 = [[1; 0]; [2; 1]; [0; 2]] /\ inv 3 7 = 5.
Proof. repeat split; reflexivity. Qed.
