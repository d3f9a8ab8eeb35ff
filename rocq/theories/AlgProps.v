(* C110: elimination over GF(2), algebraic recurrences and algebraic immunity *)
From Coq Require Import List Lia Bool Arith Sorted.
Import ListNotations.
From Verif Require Import BoolFnProofs BmProofs AlgModel AlgProofs AlgMono.

(* the monomials of degree at most d: every increasing list of at most d variables
   below l once, and so as many as the binomial coefficients add up to *)
Theorem C110_monomials : forall l d,
  (forall m, In m (monomials l d) <-> StronglySorted lt m /\ (forall v, In v m -> v < l) /\ length m <= d)
  /\ NoDup (monomials l d) /\ length (monomials l d) = upto l d.
Proof.
  intros l d. split; [intros m; apply monomials_in|]. split; [apply monomials_nodup|apply monomials_count].
Qed.

(* a system is solved, or has no solution *)
Theorem C110_solve : forall rows n, (forall r, In r rows -> length (fst r) = n) ->
  match solve_gf2_system rows n with
  | Some x => length x = n /\ forall r, In r rows -> dot n (fst r) x = snd r
  | None => forall x, exists r, In r rows /\ dot n (fst r) x <> snd r
  end.
Proof.
  intros rows n Wf. destruct (solve_gf2_system rows n) as [x|] eqn:E; [exact (solve_some rows n x Wf E)|exact (solve_none rows n Wf E)].
Qed.

(* a basis of the kernel: its members are in the kernel, they generate it, they are
   independent, and there are at least as many as columns exceed rows *)
Theorem C110_kernel : forall rows n, (forall r, In r rows -> length r = n) -> let basis := gf2_kernel_basis rows n in
  (forall v, In v basis -> length v = n /\ forall r, In r rows -> dot n r v = false)
  /\ (forall x, (forall r, In r rows -> dot n r x = false) ->
        exists picks, incl picks basis /\ forall j, j < n -> nth j x false = fold_right xorb false (map (fun p => nth j p false) picks))
  /\ (forall t, t < length basis -> exists f, f < n /\ forall u, u < length basis -> nth f (nth u basis []) false = (u =? t))
  /\ n <= length basis + length rows.
Proof. exact kernel_spec. Qed.

Lemma nth_first l : forall (bits : list bool) i, i < l -> nth i (firstn l bits) false = nth i bits false.
Proof. induction l as [|l IH]; intros [|b bits] [|i] H; cbn [firstn nth]; try lia; auto. apply IH. lia. Qed.
Lemma window_nth (out : list bool) i l v : v < l -> nth v (map (fun v => nth (i - 1 - v) out false) (seq 0 l)) false = nth (i - 1 - v) out false.
Proof.
  intros H. rewrite nth_indep with (d' := (fun v => nth (i - 1 - v) out false) 0) by (rewrite map_length, seq_length; exact H).
  rewrite (map_nth (fun v => nth (i - 1 - v) out false)). rewrite seq_nth by exact H. reflexivity.
Qed.
Definition window (bits : list bool) (i l : nat) : list bool := map (fun v => nth (i - 1 - v) bits false) (seq 0 l).

(* replaying: the seed, and then what the feedback says *)
Lemma replay_spec monos l cs : 1 <= l -> forall k out, l <= length out ->
  exists out', algebraic_replay monos l cs (seq (length out) k) out = Some out' /\ length out' = length out + k
  /\ firstn (length out) out' = out
  /\ forall i, length out <= i < length out + k -> nth i out' false = feedback monos cs (window out' i l).
Proof.
  intros L1. induction k as [|k IH]; intros out Lo.
  - cbn [seq algebraic_replay]. exists out. split; [reflexivity|]. split; [lia|]. split; [apply firstn_all|]. intros i Hi. lia.
  - cbn [seq algebraic_replay]. unfold window_at.
    assert (Nat.ltb (length out - 1) (length out) = true) as -> by (apply Nat.ltb_lt; lia). rewrite orb_true_r.
    set (b := feedback monos cs _).
    destruct (IH (out ++ [b])) as (out' & E & L & F & G); [rewrite app_length; cbn [length]; lia|].
    rewrite app_length in E, L, F, G. cbn [length] in E, L, F, G. replace (length out + 1) with (S (length out)) in * by lia.
    exists out'. split; [exact E|]. split; [lia|].
    assert (P : forall i, i < S (length out) -> nth i out' false = nth i (out ++ [b]) false).
    { intros i Hi. rewrite <- F. rewrite <- (firstn_skipn (S (length out)) out') at 1. rewrite app_nth1; [reflexivity|rewrite firstn_length; lia]. }
    assert (Fo : firstn (length out) out' = out).
    { replace (firstn (length out) out') with (firstn (length out) (firstn (S (length out)) out')) by (rewrite firstn_firstn; f_equal; lia).
      rewrite F, firstn_app, Nat.sub_diag, firstn_all, firstn_O, app_nil_r. reflexivity. }
    split; [exact Fo|].
    intros i Hi. destruct (Nat.eq_dec i (length out)) as [->|N]; [|apply G; lia].
    rewrite P by lia. rewrite app_nth2, Nat.sub_diag by lia. cbn [nth]. unfold b. f_equal. unfold window. apply map_ext_in.
    intros v Hv. apply in_seq in Hv. rewrite P by lia. rewrite app_nth1 by lia. reflexivity.
Qed.
Lemma window_ext a b i l : (forall j, j < i -> nth j a false = nth j b false) -> 1 <= i -> window a i l = window b i l.
Proof. intros H Hi. unfold window. apply map_ext. intros v. apply H. lia. Qed.
Definition obeys (l d : nat) (cs bits : list bool) : Prop :=
  forall i, l <= i < length bits -> nth i bits false = feedback (monomials l d) cs (window bits i l).
Lemma generate_iff l d cs bits : 1 <= l -> l <= length bits ->
  exists out, algebraic_generate l d cs (firstn l bits) (length bits) = Some out /\ length out = length bits /\ (out = bits <-> obeys l d cs bits).
Proof.
  intros L1 L. unfold algebraic_generate. rewrite firstn_firstn, Nat.min_id.
  assert (LL : length (firstn l bits) = l) by (rewrite firstn_length; lia).
  destruct (replay_spec (monomials l d) l cs L1 (length bits - l) (firstn l bits)) as (out & E & Lo & F & G); [lia|].
  rewrite LL in E, Lo, F, G. rewrite E. cbn [option_map]. rewrite firstn_all2 by lia.
  exists out. split; [reflexivity|]. split; [lia|]. split.
  - intros ->. intros i Hi. apply G. lia.
  - intros O.
    assert (A : forall k, k <= length bits -> forall i, i < k -> nth i out false = nth i bits false).
    { induction k as [|k IH]; intros Hk i Hi; [lia|]. destruct (Nat.eq_dec i k) as [->|]; [|apply IH; lia].
      destruct (Nat.lt_ge_cases k l) as [Hl|Hl].
      - rewrite <- (nth_first l out k Hl), F. apply nth_first. exact Hl.
      - rewrite G by lia. rewrite O by lia. f_equal. apply window_ext; [|lia]. intros j Hj. apply IH; lia. }
    apply (nth_ext out bits false false); [lia|]. intros i Hi. apply (A (length bits)); lia.
Qed.

Lemma forallb_ext_in {A} (f g : A -> bool) l : (forall a, In a l -> f a = g a) -> forallb f l = forallb g l.
Proof. induction l as [|a l IH]; intros H; [reflexivity|]. cbn [forallb]. rewrite H, IH; [reflexivity| |left; reflexivity]. intros b Hb. apply H. right. exact Hb. Qed.
(* generation with an l-bit seed: as many bits as asked for, beginning with the seed,
   each later one the polynomial's value at the l bits before it *)
Theorem C110_generate : forall l d cs seed n, 1 <= l -> length seed = l -> l <= n ->
  exists out, algebraic_generate l d cs seed n = Some out /\ length out = n /\ firstn l out = seed
  /\ forall i, l <= i < n -> nth i out false =
       parity (length (monomials l d)) (fun t => nth t cs false && forallb (fun v => nth (i - 1 - v) out false) (nth t (monomials l d) [])).
Proof.
  intros l d cs seed n L1 Ls Ln. unfold algebraic_generate. rewrite firstn_all2 by lia.
  destruct (replay_spec (monomials l d) l cs L1 (n - l) seed) as (out & E & Lo & F & G); [lia|].
  rewrite Ls in E, Lo, F, G. rewrite E. cbn [option_map]. rewrite firstn_all2 by lia. exists out.
  split; [reflexivity|]. split; [lia|]. split; [exact F|]. intros i Hi. rewrite G by lia. rewrite feedback_sum. apply psum_ext.
  intros t Ht. f_equal. unfold eval_monomial. apply forallb_ext_in. intros v Hv. apply window_nth.
  assert (Hin : In (nth t (monomials l d) []) (monomials l d)) by (apply nth_In; exact Ht).
  apply monomials_in in Hin as (_ & Be & _). apply Be. exact Hv.
Qed.

Lemma bits_eqb_spec a : forall b, bits_eqb a b = true <-> a = b.
Proof.
  induction a as [|x a IH]; intros [|y b]; cbn [bits_eqb]; split; try discriminate; try reflexivity.
  - intros H. apply andb_prop in H as [A B]. apply eqb_prop in A. apply IH in B. congruence.
  - intros E. injection E as -> ->. rewrite eqb_reflx. apply IH. reflexivity.
Qed.
Definition rows_of (bits : list bool) (l d : nat) : list arow :=
  map (fun i => (map (fun mono => eval_monomial mono (window bits i l)) (monomials l d), nth i bits false)) (seq l (length bits - l)).
Lemma dot_row bits l d i cs : dot (length (monomials l d)) (map (fun mono => eval_monomial mono (window bits i l)) (monomials l d)) cs
  = feedback (monomials l d) cs (window bits i l).
Proof.
  rewrite feedback_sum. unfold dot. apply psum_ext. intros t Ht. rewrite andb_comm. f_equal.
  set (g := fun mono => eval_monomial mono (window bits i l)). change false with (g []) at 1 || idtac.
  rewrite nth_indep with (d' := g []) by (rewrite map_length; exact Ht). apply (map_nth g).
Qed.
Lemma obeys_rows bits l d cs : obeys l d cs bits <-> forall r, In r (rows_of bits l d) -> dot (length (monomials l d)) (fst r) cs = snd r.
Proof.
  unfold obeys, rows_of. split.
  - intros O r Hr. apply in_map_iff in Hr as (i & <- & Hi). apply in_seq in Hi. cbn [fst snd]. rewrite dot_row. symmetry. apply O. lia.
  - intros H i Hi. rewrite <- dot_row. symmetry.
    apply (H (map (fun mono => eval_monomial mono (window bits i l)) (monomials l d), nth i bits false)).
    apply in_map_iff. exists i. split; [reflexivity|]. apply in_seq. lia.
Qed.

(* The search for a recurrence never indexes out of bounds, returns a polynomial whose
   replay is the sequence if there is one, and only otherwise none *)
Theorem C110_recurrence : forall bits l d, exists r, detect_algebraic_recurrence bits l d = Some r
  /\ match r with
     | Some cs => 1 <= l < length bits /\ length cs = length (monomials l d)
                  /\ algebraic_generate l d cs (firstn l bits) (length bits) = Some bits
     | None => 1 <= l < length bits -> forall cs, algebraic_generate l d cs (firstn l bits) (length bits) <> Some bits
     end.
Proof.
  intros bits l d. unfold detect_algebraic_recurrence.
  destruct ((l =? 0) || (length bits <=? l)) eqn:E0.
  { exists None. split; [reflexivity|]. intros H. apply orb_prop in E0 as [E0|E0]; [apply Nat.eqb_eq in E0|apply Nat.leb_le in E0]; lia. }
  apply orb_false_elim in E0 as [El En]. apply Nat.eqb_neq in El. apply Nat.leb_gt in En.
  pose proof (C110_solve (rows_of bits l d) (length (monomials l d))) as S.
  change (map _ (seq l (length bits - l))) with (rows_of bits l d).
  destruct (solve_gf2_system (rows_of bits l d) (length (monomials l d))) as [cs|].
  - destruct S as [Lc Sc]; [intros r Hr; apply in_map_iff in Hr as (i & <- & _); apply map_length|].
    destruct (generate_iff l d cs bits) as (out & E & Lo & Iff); [lia|lia|]. rewrite E.
    assert (out = bits) as -> by (apply Iff, obeys_rows; exact Sc).
    rewrite (proj2 (bits_eqb_spec bits bits) eq_refl). exists (Some cs). repeat split; auto; lia.
  - exists None. split; [reflexivity|]. intros _ cs E.
    destruct (S ltac:(intros r Hr; apply in_map_iff in Hr as (i & <- & _); apply map_length) cs) as (r & Hr & N). apply N.
    destruct (generate_iff l d cs bits) as (out & E' & _ & Iff); [lia|lia|]. assert (out = bits) by congruence.
    apply (proj1 (obeys_rows bits l d cs)); [apply Iff; assumption|exact Hr].
Qed.

(* the complexity is the least order, at most half the length, with such a polynomial *)
Theorem C110_complexity : forall bits d, exists r, algebraic_complexity bits d = Some r
  /\ let works l := exists cs, algebraic_generate l d cs (firstn l bits) (length bits) = Some bits in
     match r with
     | Some (l, used) => 1 <= l /\ 2 * l <= length bits /\ works l /\ (forall l', 1 <= l' < l -> ~ works l')
                         /\ 1 <= used <= length (monomials l d)
     | None => forall l, 1 <= l -> 2 * l <= length bits -> ~ works l
     end.
Proof.
  intros bits d. unfold algebraic_complexity.
  assert (Hh : 2 * (length bits / 2) <= length bits) by (apply Nat.mul_div_le; lia).
  assert (Hh' : length bits < 2 * (length bits / 2) + 2) by (pose proof (Nat.mod_upper_bound (length bits) 2 ltac:(lia)); pose proof (Nat.div_mod (length bits) 2 ltac:(lia)); lia).
  set (h := length bits / 2) in *. clearbody h.
  set (works := fun l => exists cs, algebraic_generate l d cs (firstn l bits) (length bits) = Some bits).
  assert (G : forall k s, s + k = h + 1 -> 1 <= s -> (forall l', 1 <= l' < s -> ~ works l') ->
    exists r, complexity_loop bits d (seq s k) = Some r /\ match r with
     | Some (l, used) => 1 <= l /\ 2 * l <= length bits /\ works l /\ (forall l', 1 <= l' < l -> ~ works l') /\ 1 <= used <= length (monomials l d)
     | None => forall l, 1 <= l -> 2 * l <= length bits -> ~ works l end).
  { induction k as [|k IH]; intros s Hs Hs1 Hno; cbn [seq complexity_loop].
    - exists None. split; [reflexivity|]. intros l Hl Hl2. apply Hno. lia.
    - destruct (C110_recurrence bits s d) as (r & -> & Hr). destruct r as [cs|].
      + destruct Hr as (Hl & Lc & E). eexists. split; [reflexivity|]. cbn beta iota. split; [lia|]. split; [lia|].
        split; [exists cs; exact E|]. split; [exact Hno|]. split; [lia|].
        apply Nat.max_lub; [|rewrite monomials_count; clear; induction d; cbn [upto]; rewrite ?binom_0; lia].
        rewrite <- Lc. clear. induction cs as [|c cs IH]; cbn [List.filter length]; [lia|]. destruct c; cbn [length]; lia.
      + apply IH; [lia|lia|]. intros l' Hl'. destruct (Nat.eq_dec l' s) as [->|]; [|apply Hno; lia].
        intros [cs E]. exact (Hr ltac:(lia) cs E). }
  exact (G h 1 ltac:(lia) ltac:(lia) ltac:(intros l' Hl'; lia)).
Qed.

(* A polynomial with a non-zero coefficient is not the zero function *)
Theorem C110_nonzero : forall n d cs, length cs = length (monomials n d) -> In true cs ->
  exists x, x < 2 ^ n /\ eval_anf cs n d x = true.
Proof.
  intros n d cs L H. apply anf_nonzero. apply (In_nth _ _ false) in H as (t & Ht & E). exists t. split; [lia|exact E].
Qed.

Definition vanishes (n d : nat) (cs : list bool) (Z : list nat) : Prop := forall x, In x Z -> eval_anf cs n d x = false.
Lemma vanish_kernel n d cs Z : vanishes n d cs Z <-> forall r,
  In r (map (fun x => map (fun mono => eval_monomial mono (point n x)) (monomials n d)) Z) -> dot (length (monomials n d)) r cs = false.
Proof.
  assert (D : forall x, dot (length (monomials n d)) (map (fun mono => eval_monomial mono (point n x)) (monomials n d)) cs = eval_anf cs n d x).
  { intros x. unfold eval_anf. rewrite feedback_sum. unfold dot. apply psum_ext. intros t Ht. rewrite andb_comm. f_equal.
    set (g := fun mono => eval_monomial mono (point n x)). rewrite nth_indep with (d' := g []) by (rewrite map_length; exact Ht). apply (map_nth g). }
  unfold vanishes. split.
  - intros H r Hr. apply in_map_iff in Hr as (x & <- & Hx). rewrite D. apply H. exact Hx.
  - intros H x Hx. rewrite <- D. apply H. apply in_map_iff. exists x. auto.
Qed.
Lemma annihilator_spec n d Z : match annihilator n d Z with
  | Some g => length g = length (monomials n d) /\ In true g /\ vanishes n d g Z
  | None => length (monomials n d) <= length Z /\ forall g, length g = length (monomials n d) -> vanishes n d g Z -> ~ In true g
  end.
Proof.
  unfold annihilator, annihilator_basis.
  set (rows := map (fun x => map (fun mono => eval_monomial mono (point n x)) (monomials n d)) Z).
  destruct (kernel_spec rows (length (monomials n d))) as (K & Gn & In' & Ct).
  { intros r Hr. apply in_map_iff in Hr as (x & <- & _). apply map_length. }
  destruct (gf2_kernel_basis rows (length (monomials n d))) as [|g basis]; cbn [hd_error].
  - split; [unfold rows in Ct; rewrite map_length in Ct; cbn [length] in Ct; lia|]. intros g L V H.
    destruct (Gn g (proj1 (vanish_kernel n d g Z) V)) as (picks & I & E). apply (In_nth _ _ false) in H as (j & Hj & Ej).
    rewrite E in Ej by lia. destruct picks as [|p picks]; [discriminate|]. destruct (I p (or_introl eq_refl)).
  - destruct (K g (or_introl eq_refl)) as [L V]. split; [exact L|]. split; [|apply vanish_kernel; exact V].
    destruct (In' 0) as (f & Hf & E); [cbn [length]; lia|]. specialize (E 0 ltac:(cbn [length]; lia)). cbn [nth Nat.eqb] in E.
    rewrite <- E. apply nth_In. lia.
Qed.

(* the check accepts exactly the polynomials with a non-zero coefficient that vanish
   wherever the function (or its complement) is true *)
Theorem C110_verify : forall truth w, verify_annihilator truth w = true <->
  length (coeffs w) = length (monomials (n_vars w) (degree w)) /\ In true (coeffs w)
  /\ forall x, x < length truth -> nth x truth false = negb (annihilates_complement w) -> eval_anf (coeffs w) (n_vars w) (degree w) x = false.
Proof.
  intros truth [n d cs compl]. unfold verify_annihilator. cbn [coeffs n_vars degree annihilates_complement].
  assert (Z : forallb negb cs = false <-> In true cs).
  { clear. induction cs as [|c cs IH]; cbn [forallb In]; [split; [discriminate|intros []]|]. destruct c; cbn [negb andb]; [split; auto|].
    rewrite IH. split; [auto|intros [H|H]; [discriminate|exact H]]. }
  destruct (forallb negb cs) eqn:E; cbn [orb].
  { split; [discriminate|]. intros (_ & H & _). apply Z in H. discriminate. }
  destruct (Nat.eqb_spec (length (monomials n d)) (length cs)) as [L|L]; cbn [negb].
  2:{ split; [discriminate|]. intros (H & _). congruence. }
  rewrite forallb_forall. split.
  - intros H. split; [auto|]. split; [apply Z; reflexivity|]. intros x Hx Et. specialize (H x ltac:(apply in_seq; lia)). rewrite Et in H.
    destruct compl, (eval_anf cs n d x); cbn in H; congruence.
  - intros (_ & _ & H) x Hx. apply in_seq in Hx. specialize (H x ltac:(lia)).
    destruct compl, (nth x truth false), (eval_anf cs n d x); cbn in *; try reflexivity; specialize (H eq_refl); discriminate.
Qed.

(* Algebraic immunity of every truth table: there is a result, its witness is
   accepted, it is at most half the number of variables (rounded up), and no accepted
   witness in those variables has a lower degree *)
Theorem C110_immunity : forall truth n, length truth = 2 ^ n -> exists d w,
  algebraic_immunity truth = Some (d, w) /\ n_vars w = n /\ degree w = d /\ verify_annihilator truth w = true
  /\ 2 * d <= n + 1
  /\ forall w', n_vars w' = n -> verify_annihilator truth w' = true -> d <= degree w'.
Proof.
  intros truth n L. unfold algebraic_immunity. assert (P2 : 2 ^ n <> 0) by (apply Nat.pow_nonzero; lia).
  assert (Lg : Nat.log2 (length truth) = n) by (rewrite L; apply Nat.log2_pow2; lia).
  rewrite (proj2 (Nat.eqb_neq (length truth) 0)) by lia. unfold is_power_of_two. rewrite Lg, <- L, Nat.eqb_refl.
  rewrite (proj2 (Nat.eqb_neq (length truth) 0)) by lia. cbn [negb andb orb].
  set (support := List.filter (fun x => nth x truth false) (seq 0 (length truth))).
  set (zeros := List.filter (fun x => negb (nth x truth false)) (seq 0 (length truth))).
  assert (Sp : length support + length zeros = 2 ^ n).
  { unfold support, zeros. rewrite <- L. rewrite <- (seq_length (length truth) 0) at 3. generalize (seq 0 (length truth)) as l.
    induction l as [|a l IH]; [reflexivity|]. cbn [List.filter]. destruct (nth a truth false); cbn [negb length]; lia. }
  assert (IS : forall x, In x support <-> x < length truth /\ nth x truth false = true).
  { intros x. unfold support. rewrite filter_In, in_seq. split; intros [A B]; split; auto; lia. }
  assert (IZ : forall x, In x zeros <-> x < length truth /\ nth x truth false = false).
  { intros x. unfold zeros. rewrite filter_In, in_seq. destruct (nth x truth false); cbn [negb]; split; intros [A B]; split; try lia; congruence. }
  assert (V : forall d g compl, verify_annihilator truth (wit n d g compl) = true <->
     length g = length (monomials n d) /\ In true g /\ vanishes n d g (if compl then zeros else support)).
  { intros d g compl. rewrite C110_verify. cbn [coeffs n_vars degree annihilates_complement]. unfold vanishes.
    split; intros (A & B & C); (split; [exact A|]); (split; [exact B|]).
    - intros x Hx. destruct compl; [apply IZ in Hx|apply IS in Hx]; apply C; apply Hx.
    - intros x Hx Et. apply C. destruct compl; [apply IZ|apply IS]; auto. }
  set (good := fun d => exists g compl, verify_annihilator truth (wit n d g compl) = true).
  assert (G : forall k s, s + k = n + 1 -> (forall d', d' < s -> ~ good d') -> 2 * s <= n + 1 -> exists d w,
     immunity_loop n support zeros (seq s k) = Some (d, w) /\ n_vars w = n /\ degree w = d /\ verify_annihilator truth w = true
     /\ 2 * d <= n + 1 /\ forall d', d' < d -> ~ good d').
  { induction k as [|k IH]; intros s Hs Hno H2; [lia|]. cbn [seq immunity_loop].
    pose proof (annihilator_spec n s support) as AS. destruct (annihilator n s support) as [g|].
    { exists s, (wit n s g false). repeat split; auto. apply V. exact AS. }
    pose proof (annihilator_spec n s zeros) as AZ. destruct (annihilator n s zeros) as [g|].
    { exists s, (wit n s g true). repeat split; auto. apply V. exact AZ. }
    destruct AS as [CS AS], AZ as [CZ AZ]. rewrite monomials_count in CS, CZ.
    assert (Small : 2 * s < n).
    { destruct (Nat.lt_ge_cases (2 * s) n) as [|Hge]; [assumption|]. pose proof (upto_majority n s Hge ltac:(lia)). lia. }
    apply IH; [lia| |lia].
    intros d' Hd. destruct (Nat.eq_dec d' s) as [->|]; [|apply Hno; lia].
    intros (g & compl & Vg). apply V in Vg as (A & B & C). destruct compl; [exact (AZ g A C B)|exact (AS g A C B)]. }
  destruct (G (n + 1) 0) as (d & w & E & N & D & Vw & B & Mn); [lia|intros d' Hd; lia|lia|].
  exists d, w. repeat split; auto. intros w' N' V'. destruct (Nat.le_gt_cases d (degree w')) as [|H]; [assumption|exfalso].
  apply (Mn (degree w') H). destruct w' as [n' d' g' c']. cbn [n_vars degree] in *. subst n'. exists g', c'. exact V'.
Qed.

(* the check does not compare the witness's number of variables with the table: a
   variable the table does not have gives an accepted witness below the immunity *)
Theorem C110_verify_vars_refuted : exists truth d w w', algebraic_immunity truth = Some (d, w)
  /\ verify_annihilator truth w' = true /\ degree w' < d.
Proof.
  exists [false; false; false; true; false; true; true; true], 2.
  eexists. exists (wit 4 1 [false; false; false; false; true] false). split; [vm_compute; reflexivity|].
  split; [vm_compute; reflexivity|]. cbn. lia.
Qed.

Example C110_ex :
  monomials 3 2 = [[]; [0]; [1]; [2]; [0; 1]; [0; 2]; [1; 2]]
  /\ solve_gf2_system [([true; true; false], true); ([false; true; true], true)] 3 = Some [false; true; false]
  /\ solve_gf2_system [([true; true], true); ([true; true], false)] 2 = None
  /\ gf2_kernel_basis [[true; true; false]; [false; true; true]] 3 = [[true; true; true]]
  /\ algebraic_generate 3 2 [false; false; false; true; true; false; false] [false; true; true] 10
       = Some [false; true; true; true; false; true; true; true; false; true]
  /\ (exists cs, detect_algebraic_recurrence [false; true; true; true; false; true; true; true; false; true; true; true] 3 1 = Some (Some cs))
  /\ detect_algebraic_recurrence [false; true; false; false; false; true; true] 1 2 = Some None
  /\ (exists w, algebraic_immunity [false; false; false; true; false; true; true; true] = Some (2, w))
  /\ In true [false; true] /\ length [false; true] = length (monomials 1 1).
Proof. repeat split; try (vm_compute; reflexivity); try (eexists; vm_compute; reflexivity). right. left. reflexivity. Qed.
