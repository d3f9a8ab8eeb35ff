(** Lemmas about the solutions found over GF(p). *)
From Coq Require Import List ZArith Znumtheory Bool Lia Setoid Morphisms.
From Verif Require Import ModpModel ModpFermat ModpProofs.
Import ListNotations.
Open Scope Z_scope.

Lemma zsum_front n f : zsum (S n) f = f 0%nat + zsum n (fun i => f (S i)).
Proof. induction n as [| n IH]; [cbn; lia |]. change (zsum (S (S n)) f) with (zsum (S n) f + f (S n)). rewrite IH. cbn [zsum]. lia. Qed.
Definition lin (cs : list (nat * Z)) (x : nat -> Z) : Z := fold_right (fun va s => snd va * x (fst va) + s) 0 cs.
Definition holds (p : Z) (e : equation) (x : nat -> Z) : Prop := cong p (lin (coeffs e) x) (rhs e).
Definition in_vars (nv : nat) (eqs : list equation) : Prop := forall e va, In e eqs -> In va (coeffs e) -> (fst va < nv)%nat.
Definition unit_at (i j : nat) : Z := if Nat.eqb j i then 1 else 0.

Lemma zsum_set nv c i y x : length c = nv -> (i < nv)%nat -> zsum nv (fun v => get (set c i y) v * x v) = zsum nv (fun v => get c v * x v) + (y - get c i) * x i.
Proof.
  intros L Hi. transitivity (zsum nv (fun v => get c v * x v + (if Nat.eqb v i then (y - get c i) * x i else 0))).
  - apply zsum_ext. intros v Hv. rewrite get_set, L. destruct (Nat.ltb_spec i nv); [| lia]. rewrite andb_true_r. destruct (Nat.eqb_spec i v) as [-> | N]; [rewrite Nat.eqb_refl; lia |]. apply not_eq_sym, Nat.eqb_neq in N. rewrite N. lia.
  - rewrite zsum_add. f_equal. rewrite (zsum_single _ _ i Hi), Nat.eqb_refl; [reflexivity |]. intros j _ N. apply Nat.eqb_neq in N. rewrite N. reflexivity.
Qed.
Definition adds (nv : nat) (p : Z) (w : nat * Z -> Z) (cs : list (nat * Z)) (c : list Z) : list Z :=
  fold_left (fun c va => if Nat.ltb (fst va) nv then set c (fst va) (madd (get c (fst va)) (w va) p) else c) cs c.
Lemma adds_spec nv p w k cs : (forall va, In va cs -> (fst va < nv)%nat) -> (forall va, cong p (w va) (k * snd va)) -> forall c, length c = nv ->
  length (adds nv p w cs c) = nv /\ forall x, cong p (zsum nv (fun v => get (adds nv p w cs c) v * x v)) (zsum nv (fun v => get c v * x v) + k * lin cs x).
Proof.
  intros R K. induction cs as [| va cs IH]; intros c L; cbn [adds fold_left lin fold_right]; [split; [exact L |]; intros x; rewrite Z.mul_0_r, Z.add_0_r; reflexivity |].
  assert (fst va < nv)%nat as Hv by (apply R; left; reflexivity). destruct (Nat.ltb_spec (fst va) nv); [| lia]. destruct (IH (fun va H => R va (or_intror H)) (set c (fst va) (madd (get c (fst va)) (w va) p))) as [L' E]; [rewrite set_length; exact L |].
  split; [exact L' |]. intros x. unfold adds in E. rewrite E, zsum_set by assumption. fold (lin cs x). rewrite madd_c, K. match goal with |- cong _ ?a ?b => replace b with a by lia end. reflexivity.
Qed.
Lemma adds_len nv p w cs : forall c, length (adds nv p w cs c) = length c.
Proof. induction cs as [| va cs IH]; intros c; cbn [adds fold_left]; [reflexivity |]. unfold adds in IH. rewrite IH. destruct (Nat.ltb _ _); [apply set_length | reflexivity]. Qed.
Lemma adds_rng nv p w cs : 0 < p -> forall c, (forall v, 0 <= get c v < p) -> forall v, 0 <= get (adds nv p w cs c) v < p.
Proof.
  intros P. induction cs as [| va cs IH]; intros c R v; cbn [adds fold_left]; [apply R |]. apply IH. intros u. destruct (Nat.ltb _ _); [| apply R]. rewrite get_set. destruct (_ && _); [apply Z.mod_pos_bound, P | apply R].
Qed.
Lemma zsum_unit nv c v : (v < nv)%nat -> zsum nv (fun u => get c u * unit_at v u) = get c v.
Proof.
  intros L. rewrite (zsum_single _ _ v L); unfold unit_at; [rewrite Nat.eqb_refl; lia |]. intros j _ N. apply Nat.eqb_neq in N. rewrite N. lia.
Qed.
Lemma zsum_const0 nv c : zsum nv (fun u => get c u * 0) = 0.
Proof. apply zsum_zero. intros. lia. Qed.
Lemma zsum_repeat nv n x : zsum nv (fun v => get (repeat 0 n) v * x v) = 0.
Proof. apply zsum_zero. intros i _. rewrite get_repeat. lia. Qed.

(** ** Re-checking *)
Definition csum (combo : list (nat * Z)) (F : nat -> Z) : Z := fold_right (fun im s => snd im * F (fst im) + s) 0 combo.
Definition eqat (eqs : list equation) (i : nat) : equation := nth i eqs (Equation [] 0).
Definition eres (e : equation) (x : nat -> Z) : Z := lin (coeffs e) x - rhs e.
Lemma sum_combo_spec eqs nv p combo : in_vars nv eqs -> forall l r l' r', length l = nv -> sum_combo eqs nv p combo l r = Some (l', r') ->
  length l' = nv /\ forall x, cong p (zsum nv (fun v => get l' v * x v) - r') (zsum nv (fun v => get l v * x v) - r + csum combo (fun i => eres (eqat eqs i) x)).
Proof.
  intros R. induction combo as [| [i mult] combo IH]; intros l r l' r' L; cbn [sum_combo csum fold_right].
  - intros [= <- <-]. split; [exact L |]. intros x. rewrite Z.add_0_r. reflexivity.
  - destruct (nth_error eqs i) as [e |] eqn:E; [| discriminate]. assert (eqat eqs i = e) as Ee by (apply nth_error_nth; exact E). apply nth_error_In in E.
    destruct (adds_spec nv p (fun va => mmul mult (snd va) p) mult (coeffs e) (fun va H => R e va E H) (fun va => mmul_c p mult (snd va)) l L) as [L1 S1]. intros H. destruct (IH _ _ _ _ L1 H) as [L2 S2]. split; [exact L2 |]. intros x.
    rewrite (S2 x). change (add_equation nv p mult e l) with (adds nv p (fun va => mmul mult (snd va) p) (coeffs e) l). rewrite S1, madd_c, mmul_c. cbn [fst snd]. rewrite Ee. fold (csum combo (fun i => eres (eqat eqs i) x)). unfold eres at 2.
    match goal with |- cong _ ?a ?b => replace b with a by lia end. reflexivity.
Qed.
Lemma sum_combo_rng eqs nv p combo : 0 < p -> forall l r l' r', (forall v, 0 <= get l v < p) -> 0 <= r < p -> sum_combo eqs nv p combo l r = Some (l', r') -> (forall v, 0 <= get l' v < p) /\ 0 <= r' < p.
Proof.
  intros P. induction combo as [| [i mult] combo IH]; intros l r l' r' Rl Rr; cbn [sum_combo]; [intros [= <- <-]; split; assumption |].
  destruct (nth_error eqs i); [| discriminate]. apply IH; [apply adds_rng; assumption | apply Z.mod_pos_bound, P].
Qed.
Lemma sum_combo_total eqs nv p combo : (forall im, In im combo -> (fst im < length eqs)%nat) -> forall l r, exists l' r', sum_combo eqs nv p combo l r = Some (l', r').
Proof.
  induction combo as [| [i mult] combo IH]; intros R l r; cbn [sum_combo]; [eexists _, _; reflexivity |]. destruct (nth_error eqs i) as [e |] eqn:E; [apply IH; intros im H; apply R; right; exact H |].
  apply nth_error_None in E. specialize (R (i, mult) (or_introl eq_refl)). cbn in R. lia.
Qed.
Lemma all_zero_get l : forallb (fun x => Z.eqb x 0) l = true <-> forall v, get l v = 0.
Proof.
  rewrite forallb_forall. split.
  - intros H v. unfold get. destruct (Nat.lt_ge_cases v (length l)) as [L | L]; [apply Z.eqb_eq, H, nth_In, L | apply nth_overflow, L].
  - intros H x Hx. apply In_nth with (d := 0) in Hx as (v & _ & <-). apply Z.eqb_eq, H.
Qed.
Lemma csum_zero p combo F : (forall im, In im combo -> cong p (F (fst im)) 0) -> cong p (csum combo F) 0.
Proof.
  induction combo as [| im combo IH]; intros H; cbn [csum fold_right]; [reflexivity |]. fold (csum combo F). rewrite IH by (intros x Hx; apply H; right; exact Hx). rewrite (H im (or_introl eq_refl)). rewrite Z.mul_0_r. reflexivity.
Qed.
Lemma sum_combo_in eqs nv p combo l r l' r' : sum_combo eqs nv p combo l r = Some (l', r') -> forall im, In im combo -> (fst im < length eqs)%nat.
Proof.
  revert l r. induction combo as [| [i mult] combo IH]; intros l r; cbn [sum_combo]; [intros _ im [] |]. destruct (nth_error eqs i) as [e |] eqn:E; [| discriminate]. intros H im [<- | Him]; [| exact (IH _ _ H im Him)].
  cbn. apply nth_error_Some. congruence.
Qed.
Lemma eqat_in eqs i : (i < length eqs)%nat -> In (eqat eqs i) eqs.
Proof. apply nth_In. Qed.
Lemma holds_eres p e x : holds p e x <-> cong p (eres e x) 0.
Proof. unfold holds, eres, cong. rewrite Z.sub_0_r. reflexivity. Qed.
Lemma refutation_sound eqs nv p combo x : 0 < p -> in_vars nv eqs -> is_refutation eqs nv p combo = true -> ~ (forall e, In e eqs -> holds p e x).
Proof.
  intros P R H All. unfold is_refutation in H. destruct combo as [| c combo]; [discriminate |]. set (cb := c :: combo) in *. clearbody cb. destruct (sum_combo eqs nv p cb (repeat 0 nv) 0) as [[l r] |] eqn:E; [| discriminate].
  apply andb_true_iff in H as [Z1 Z2]. rewrite all_zero_get in Z1. apply negb_true_iff, Z.eqb_neq in Z2. destruct (sum_combo_spec eqs nv p cb R _ _ _ _ (repeat_length 0 nv) E) as [_ S]. specialize (S x).
  destruct (sum_combo_rng eqs nv p cb P _ _ _ _ (fun v => eq_ind_r (fun z => 0 <= z < p) (conj (Z.le_refl 0) P) (get_repeat nv v)) (conj (Z.le_refl 0) P) E) as [_ Rr].
  rewrite zsum_repeat, csum_zero in S.
  - rewrite zsum_zero in S by (intros v _; rewrite Z1; lia). replace (0 - 0 + 0) with 0 in S by lia. destruct S as [k K]. assert (k = 0) by nia. lia.
  - intros im Him. apply holds_eres, All, eqat_in. exact (sum_combo_in _ _ _ _ _ _ _ _ E im Him).
Qed.
Lemma csum_filter combo F : csum (filter (fun km => negb (Z.eqb (snd km) 0)) combo) F = csum combo F.
Proof. induction combo as [| im combo IH]; cbn [filter csum fold_right]; [reflexivity |]. destruct (Z.eqb_spec (snd im) 0) as [E | E]; cbn [negb csum fold_right]; fold (csum combo F); unfold csum in IH |- *; rewrite IH; [rewrite E; lia | reflexivity]. Qed.
Lemma csum_list l F : forall a, csum (combine (seq a (length l)) l) F = zsum (length l) (fun k => get l k * F (a + k)%nat).
Proof.
  induction l as [| y l IH]; intros a; [reflexivity |]. cbn [length seq combine csum fold_right fst snd]. fold (csum (combine (seq (S a) (length l)) l) F). rewrite IH, zsum_front. unfold get at 2. cbn [nth]. rewrite Nat.add_0_r. f_equal.
  apply zsum_ext. intros i _. replace (S a + i)%nat with (a + S i)%nat by lia. reflexivity.
Qed.

Section field.
Variable p : Z.
Hypothesis Hp : prime p.
Notation "a == b" := (cong p a b) (at level 70).
Notation rowat rows i := (nth i rows dflt).
Lemma ppos : 0 < p. Proof. pose proof (p2 p Hp). lia. Qed.

(** ** Loading *)
Lemma load_wf nv m i e : wf p nv m (load nv m p (i, e)).
Proof.
  unfold wf, load. cbn [rc rp fst snd]. change (dense (coeffs e) nv p) with (adds nv p snd (coeffs e) (repeat 0 nv)). rewrite adds_len, set_length, !repeat_length. split; [reflexivity |]. split; [reflexivity |].
  intros [v | | k]; cbn [at_ rc rr rp].
  - change (dense (coeffs e) nv p) with (adds nv p snd (coeffs e) (repeat 0 nv)). apply adds_rng; [apply ppos |]. intros u. rewrite get_repeat. pose proof ppos. lia.
  - apply Z.mod_pos_bound, ppos.
  - rewrite get_set, get_repeat. destruct (_ && _); [apply Z.mod_pos_bound, ppos | pose proof ppos; lia].
Qed.
Lemma load_resid nv m i e x : (forall va, In va (coeffs e) -> (fst va < nv)%nat) -> resid nv x (load nv m p (i, e)) == eres e x.
Proof.
  intros R. unfold resid, load. cbn [at_ rc rr fst snd]. change (dense (coeffs e) nv p) with (adds nv p snd (coeffs e) (repeat 0 nv)).
  destruct (adds_spec nv p snd 1 (coeffs e) R (fun va => eq_ind_r (fun z => cong p (snd va) z) (reflexivity _) (Z.mul_1_l (snd va))) (repeat 0 nv) (repeat_length 0 nv)) as [_ S]. rewrite S, zsum_repeat, cong_mod. unfold eres. match goal with |- cong _ ?a ?b => replace a with b by lia end. reflexivity.
Qed.
Lemma load_at eqs nv m i : (i < length eqs)%nat -> rowat (load_all eqs nv m p) i = load nv m p (i, eqat eqs i).
Proof.
  intros L. unfold load_all. rewrite nth_indep with (d' := load nv m p (0%nat, Equation [] 0)) by (rewrite map_length, combine_length, seq_length; lia). rewrite map_nth, combine_nth, seq_nth by (rewrite ?seq_length; lia). reflexivity.
Qed.
Lemma load_len eqs nv m : length (load_all eqs nv m p) = length eqs.
Proof. unfold load_all. rewrite map_length, combine_length, seq_length. lia. Qed.
Lemma load_solves eqs nv m x : in_vars nv eqs -> all_rows (rsolves p nv x) (load_all eqs nv m p) <-> forall e, In e eqs -> holds p e x.
Proof.
  intros R. unfold all_rows. rewrite load_len. split.
  - intros H e He. destruct (In_nth eqs e (Equation [] 0) He) as (i & Hi & E). specialize (H i Hi). rewrite load_at in H by exact Hi. unfold rsolves in H. fold (eqat eqs i) in E. rewrite load_resid, E in H by (intros va Hva; apply (R (eqat eqs i)); [apply eqat_in, Hi | exact Hva]). apply holds_eres, H.
  - intros H i Hi. rewrite load_at by exact Hi. unfold rsolves. rewrite load_resid by (intros va Hva; apply (R (eqat eqs i)); [apply eqat_in, Hi | exact Hva]). apply holds_eres, H, eqat_in, Hi.
Qed.

(** What the elimination returns. *)
Lemma elim_all eqs nv m rows pivots : in_vars nv eqs -> eliminate (seq 0 nv) (load_all eqs nv m p) [] nv m p = (rows, pivots) ->
  length rows = length eqs /\ all_rows (wf p nv m) rows /\ ech rows pivots nv /\ (forall x, all_rows (rsolves p nv x) rows <-> forall e, In e eqs -> holds p e x) /\
  (forall P, closed p nv m P -> all_rows P (load_all eqs nv m p) -> all_rows P rows).
Proof.
  intros R E. destruct (eliminate_spec p Hp nv m nv (load_all eqs nv m p) [] 0 rows pivots) as (L & W & H & S & C).
  - intros i Hi. rewrite load_len in Hi. rewrite load_at by exact Hi. apply load_wf.
  - constructor; cbn [length]; intros; lia.
  - exact E.
  - rewrite load_len in L. split; [exact L |]. split; [exact W |]. split; [exact H |]. split; [intros x; rewrite S; apply load_solves, R | exact C].
Qed.

(** ** Solutions of a reduced system *)
Variables nv m : nat.
Variable rows : list row.
Variable pivots : list nat.
Hypothesis W : all_rows (wf p nv m) rows.
Hypothesis E : ech rows pivots nv.
Lemma row_zero_iff i : (i < length rows)%nat -> forallb (fun c => Z.eqb c 0) (rc (rowat rows i)) = true <-> forall v, at_ (rowat rows i) (CV v) = 0.
Proof. intros _. rewrite all_zero_get. reflexivity. Qed.
Lemma bad_resid r x : wf p nv m r -> bad_row r = true -> resid nv x r == - rr r /\ rr r <> 0 /\ ~ rsolves p nv x r.
Proof.
  intros (L1 & L2 & Rg) B. unfold bad_row in B. apply andb_true_iff in B as [B1 B2]. rewrite all_zero_get in B1. apply negb_true_iff, Z.eqb_neq in B2.
  assert (resid nv x r = - rr r) as Er by (unfold resid; rewrite zsum_zero; [cbn [at_]; lia |]; intros v _; cbn [at_]; rewrite B1; lia). rewrite Er. split; [reflexivity |]. split; [exact B2 |].
  unfold rsolves. rewrite Er. intros [k K]. specialize (Rg CR). cbn [at_] in Rg. assert (k = 0) by nia. lia.
Qed.
Lemma pivots_nodup : NoDup pivots.
Proof.
  apply NoDup_nth with (d := 0%nat). intros i j Hi Hj Eq. destruct (Nat.eq_dec i j) as [-> | N]; [reflexivity | exfalso]. pose proof (e_len _ _ _ E) as L.
  pose proof (e_piv _ _ _ E i i ltac:(lia) Hi) as A. pose proof (e_piv _ _ _ E i j ltac:(lia) Hj) as B. rewrite Nat.eqb_refl in A. apply Nat.eqb_neq in N. rewrite N, <- Eq in B. congruence.
Qed.
Lemma fold_set_other (g : nat -> Z) pv v : ~ In v pv -> forall a x, get (fold_left (fun x rp => set x (snd rp) (g (fst rp))) (combine (seq a (length pv)) pv) x) v = get x v.
Proof.
  induction pv as [| pc pv IH]; intros N a x; cbn [length seq combine fold_left]; [reflexivity |]. rewrite IH by (intros H; apply N; right; exact H). cbn [fst snd]. rewrite get_set. destruct (Nat.eqb_spec pc v) as [-> | _]; [destruct N; left; reflexivity | reflexivity].
Qed.
Lemma fold_set_len (g : nat -> Z) pv : forall a x, length (fold_left (fun x rp => set x (snd rp) (g (fst rp))) (combine (seq a (length pv)) pv) x) = length x.
Proof. induction pv as [| pc pv IH]; intros a x; cbn [length seq combine fold_left]; [reflexivity |]. rewrite IH. apply set_length. Qed.
Lemma fold_set_piv (g : nat -> Z) pv : NoDup pv -> forall a x j, (j < length pv)%nat -> (nth j pv 0%nat < length x)%nat ->
  get (fold_left (fun x rp => set x (snd rp) (g (fst rp))) (combine (seq a (length pv)) pv) x) (nth j pv 0%nat) = g (a + j)%nat.
Proof.
  induction pv as [| pc pv IH]; intros N a x j Hj L; cbn [length] in *; [lia |]. inversion N as [| ? ? N1 N2]; subst. cbn [seq combine fold_left fst snd]. destruct j as [| j]; cbn [nth] in *.
  - rewrite fold_set_other by exact N1. rewrite get_set, Nat.eqb_refl. apply Nat.ltb_lt in L. rewrite L, Nat.add_0_r. reflexivity.
  - rewrite IH by (try exact N2; rewrite ?set_length; lia). f_equal. lia.
Qed.
Lemma fold_set_rng (g : nat -> Z) pv (Q : Z -> Prop) : (forall j, Q (g j)) -> forall a x, (forall v, Q (get x v)) -> forall v, Q (get (fold_left (fun x rp => set x (snd rp) (g (fst rp))) (combine (seq a (length pv)) pv) x) v).
Proof.
  intros Qg. induction pv as [| pc pv IH]; intros a x Qx v; cbn [length seq combine fold_left]; [apply Qx |]. apply IH. intros u. cbn [fst snd]. rewrite get_set. destruct (_ && _); [apply Qg | apply Qx].
Qed.
Definition X0 (v : nat) : Z := get (particular rows pivots nv) v.
Lemma X0_piv j : (j < length pivots)%nat -> X0 (nth j pivots 0%nat) = rr (rowat rows j).
Proof. intros Hj. unfold X0, particular. rewrite (fold_set_piv (fun i => rr (rowat rows i)) pivots pivots_nodup 0 (repeat 0 nv) j Hj); [reflexivity |]. rewrite repeat_length. apply (e_col _ _ _ E), Hj. Qed.
Lemma X0_other v : ~ In v pivots -> X0 v = 0.
Proof. intros N. unfold X0, particular. rewrite (fold_set_other (fun i => rr (rowat rows i))) by exact N. apply get_repeat. Qed.
Lemma piv_or v : {j | (j < length pivots)%nat /\ nth j pivots 0%nat = v} + {~ In v pivots}.
Proof.
  destruct (in_dec Nat.eq_dec v pivots) as [H | H]; [left | right; exact H]. clear -H. induction pivots as [| pc pv IH]; [destruct H |]. destruct (Nat.eq_dec pc v) as [Eq | N]; [exists 0%nat; cbn; split; [lia | exact Eq] |].
  destruct IH as [j [A B]]; [destruct H; [contradiction | assumption] |]. exists (S j). cbn. split; [lia | exact B].
Qed.
Lemma particular_len : length (particular rows pivots nv) = nv.
Proof. unfold particular. rewrite (fold_set_len (fun i => rr (rowat rows i))). apply repeat_length. Qed.
Lemma rr_rng i : 0 <= rr (rowat rows i) < p.
Proof. destruct (Nat.lt_ge_cases i (length rows)) as [L | L]; [destruct (W i L) as (_ & _ & R); exact (R CR) |]. rewrite nth_overflow by exact L. cbn. pose proof ppos. lia. Qed.
Lemma particular_rng v : 0 <= get (particular rows pivots nv) v < p.
Proof. unfold particular. apply (fold_set_rng (fun i => rr (rowat rows i)) pivots (fun z => 0 <= z < p)); [apply rr_rng |]. intros u. rewrite get_repeat. pose proof ppos. lia. Qed.
(** In a row with a pivot only that pivot and the free columns matter. *)
Lemma row_low i v : (length pivots <= i < length rows)%nat -> (v < nv)%nat -> at_ (rowat rows i) (CV v) = 0.
Proof. apply (e_zero _ _ _ E). Qed.
Lemma particular_solves : find bad_row rows = None -> all_rows (rsolves p nv X0) rows.
Proof.
  intros B i Hi. unfold rsolves, resid. pose proof (e_len _ _ _ E) as L. destruct (Nat.lt_ge_cases i (length pivots)) as [Lt | Ge].
  - rewrite (zsum_single nv _ (nth i pivots 0%nat)).
    + rewrite (e_piv _ _ _ E i i Hi Lt), Nat.eqb_refl, (X0_piv i Lt). cbn [at_]. rewrite Z.mul_1_l, Z.sub_diag. reflexivity.
    + apply (e_col _ _ _ E), Lt.
    + intros v Hv N. destruct (piv_or v) as [(j & Hj & <-) | Nv]; [| rewrite (X0_other v Nv); lia]. rewrite (e_piv _ _ _ E i j Hi Hj). destruct (Nat.eqb_spec i j) as [-> | _]; [destruct N; reflexivity | lia].
  - rewrite zsum_zero by (intros v Hv; rewrite row_low by lia; lia). pose proof (find_none bad_row rows B (rowat rows i) (nth_In _ _ Hi)) as N. unfold bad_row in N. apply andb_false_iff in N as [N | N].
    + exfalso. assert (forallb (fun c => Z.eqb c 0) (rc (rowat rows i)) = true) as T; [| congruence]. apply all_zero_get. intros v. destruct (Nat.lt_ge_cases v nv) as [Lv | Lv]; [apply (row_low i v); lia |]. apply nth_overflow. destruct (W i Hi) as (L1 & _). lia.
    + apply negb_false_iff, Z.eqb_eq in N. cbn [at_]. rewrite N. reflexivity.
Qed.

(** ** The kernel *)
Notation KV f := (kernel_vector rows pivots nv f p).
Lemma kv_len f : length (KV f) = nv.
Proof. unfold kernel_vector. rewrite (fold_set_len (fun i => msub 0 (get (rc (rowat rows i)) f) p)), set_length. apply repeat_length. Qed.
Lemma kv_piv f j : (j < length pivots)%nat -> get (KV f) (nth j pivots 0%nat) == - at_ (rowat rows j) (CV f).
Proof.
  intros Hj. unfold kernel_vector. rewrite (fold_set_piv (fun i => msub 0 (get (rc (rowat rows i)) f) p) pivots pivots_nodup 0 _ j Hj) by (rewrite set_length, repeat_length; apply (e_col _ _ _ E), Hj).
  rewrite msub_c. cbn [at_ Nat.add]. reflexivity.
Qed.
Lemma kv_other f v : (f < nv)%nat -> ~ In v pivots -> get (KV f) v = unit_at f v.
Proof.
  intros Hf N. unfold kernel_vector. rewrite (fold_set_other (fun i => msub 0 (get (rc (rowat rows i)) f) p)) by exact N. rewrite get_set, get_repeat, repeat_length. apply Nat.ltb_lt in Hf. rewrite Hf, andb_true_r. unfold unit_at. rewrite Nat.eqb_sym. reflexivity.
Qed.
Definition dotr (x : nat -> Z) (i : nat) : Z := zsum nv (fun v => at_ (rowat rows i) (CV v) * x v).
Lemma kv_kernel f i : (f < nv)%nat -> ~ In f pivots -> (i < length rows)%nat -> dotr (get (KV f)) i == 0.
Proof.
  intros Hf Nf Hi. unfold dotr. pose proof (e_len _ _ _ E) as L. destruct (Nat.lt_ge_cases i (length pivots)) as [Lt | Ge]; [| rewrite zsum_zero; [reflexivity |]; intros v Hv; rewrite row_low by lia; lia].
  set (pc := nth i pivots 0%nat). assert (pc < nv)%nat as Lp by (apply (e_col _ _ _ E), Lt). assert (pc <> f) as Npf by (intros Q; apply Nf; rewrite <- Q; apply nth_In, Lt).
  transitivity (zsum nv (fun v => (if Nat.eqb v f then at_ (rowat rows i) (CV f) else 0) + (if Nat.eqb v pc then - at_ (rowat rows i) (CV f) else 0))).
  - apply zsum_eqm. intros v Hv. destruct (piv_or v) as [(j & Hj & Ej) | Nv].
    + rewrite <- Ej at 1. rewrite (e_piv _ _ _ E i j Hi Hj). destruct (Nat.eqb_spec i j) as [<- | N].
      * fold pc in Ej. subst v. rewrite Nat.eqb_refl. apply Nat.eqb_neq in Npf. rewrite Npf. unfold pc. rewrite kv_piv by exact Lt. rewrite Z.mul_1_l, Z.add_0_l. reflexivity.
      * destruct (Nat.eqb_spec v f) as [Q | _]; [exfalso; apply Nf; rewrite <- Q, <- Ej; apply nth_In, Hj |]. destruct (Nat.eqb_spec v pc) as [Q | _]; [exfalso; apply N; apply (proj1 (NoDup_nth pivots 0%nat) pivots_nodup); [exact Lt | exact Hj | unfold pc in Q; congruence] |]. reflexivity.
    + rewrite kv_other by assumption. unfold unit_at. destruct (Nat.eqb_spec v pc) as [Q | _]; [exfalso; apply Nv; rewrite Q; apply nth_In, Lt |]. destruct (Nat.eqb_spec v f) as [-> | _]; [rewrite Z.mul_1_r, Z.add_0_r; reflexivity | rewrite Z.mul_0_r; reflexivity].
  - rewrite zsum_add. rewrite (zsum_single nv _ f Hf), Nat.eqb_refl by (intros j _ N; apply Nat.eqb_neq in N; rewrite N; reflexivity). rewrite (zsum_single nv _ pc Lp), Nat.eqb_refl by (intros j _ N; apply Nat.eqb_neq in N; rewrite N; reflexivity). rewrite Z.add_opp_diag_r. reflexivity.
Qed.
Lemma rsolves_dotr x i : rsolves p nv x (rowat rows i) <-> dotr x i == rr (rowat rows i).
Proof. unfold rsolves, resid, dotr, cong. cbn [at_]. rewrite Z.sub_0_r. reflexivity. Qed.
Lemma agree_free x y : all_rows (rsolves p nv x) rows -> all_rows (rsolves p nv y) rows -> (forall v, (v < nv)%nat -> ~ In v pivots -> x v == y v) -> forall v, (v < nv)%nat -> x v == y v.
Proof.
  intros Sx Sy A v Hv. destruct (piv_or v) as [(i & Hi & Ei) | N]; [| exact (A v Hv N)]. pose proof (e_len _ _ _ E) as L. assert (i < length rows)%nat as Li by lia.
  pose proof (proj1 (rsolves_dotr x i) (Sx i Li)) as Dx. pose proof (proj1 (rsolves_dotr y i) (Sy i Li)) as Dy.
  assert (dotr x i - dotr y i == x v - y v) as D.
  { unfold dotr. transitivity (zsum nv (fun u => if Nat.eqb u v then x v - y v else 0)).
    - transitivity (zsum nv (fun u => at_ (rowat rows i) (CV u) * x u + -1 * (at_ (rowat rows i) (CV u) * y u))); [rewrite zsum_add, zsum_scal; match goal with |- cong _ ?a ?b => replace a with b by lia end; reflexivity |].
      apply zsum_eqm. intros u Hu. destruct (piv_or u) as [(j & Hj & Ej) | Nu].
      + rewrite <- Ej at 1 3. rewrite (e_piv _ _ _ E i j Li Hj). destruct (Nat.eqb_spec i j) as [<- | N].
        * assert (u = v) as -> by congruence. rewrite Nat.eqb_refl. replace (1 * x v + -1 * (1 * y v)) with (x v - y v) by lia. reflexivity.
        * destruct (Nat.eqb_spec u v) as [Q | _]; [exfalso; apply N; apply (proj1 (NoDup_nth pivots 0%nat) pivots_nodup); [exact Hi | exact Hj | congruence] |]. reflexivity.
      + destruct (Nat.eqb_spec u v) as [-> | _]; [exfalso; apply Nu; rewrite <- Ei; apply nth_In, Hi |]. rewrite (A u Hu Nu). match goal with |- cong _ ?a ?b => replace a with b by lia end. reflexivity.
    - rewrite (zsum_single nv _ v Hv), Nat.eqb_refl by (intros j _ N; apply Nat.eqb_neq in N; rewrite N; reflexivity). reflexivity. }
  rewrite Dx, Dy, Z.sub_diag in D. symmetry in D. destruct D as [k K]. exists k. lia.
Qed.
Lemma free_iff f : In f (free_cols pivots nv) <-> (f < nv)%nat /\ ~ In f pivots.
Proof.
  unfold free_cols. rewrite filter_In, in_seq, negb_true_iff. split.
  - intros [H N]. split; [lia |]. intros K. assert (existsb (Nat.eqb f) pivots = true) as T; [| congruence]. apply existsb_exists. exists f. split; [exact K | apply Nat.eqb_refl].
  - intros [H N]. split; [lia |]. destruct (existsb (Nat.eqb f) pivots) eqn:X; [| reflexivity]. exfalso. apply N. apply existsb_exists in X as (g & Hg & Q). apply Nat.eqb_eq in Q. subst g. exact Hg.
Qed.
Lemma free_nodup : NoDup (free_cols pivots nv).
Proof. apply NoDup_filter, seq_NoDup. Qed.

(** ** Enumeration *)
Fixpoint dsum (code : Z) (fs : list nat) (v : nat) : Z := match fs with [] => 0 | f :: fs => (code mod p) * get (KV f) v + dsum (code / p) fs v end.
Fixpoint digit (code : Z) (fs : list nat) (g : nat) : Z := match fs with [] => 0 | f :: fs => if Nat.eqb f g then code mod p else digit (code / p) fs g end.
Lemma add_multiple_spec coef x f : length x = nv -> length (add_multiple nv p coef x (KV f)) = nv /\ (forall v, (v < nv)%nat -> get (add_multiple nv p coef x (KV f)) v == get x v + coef * get (KV f) v) /\
  ((forall v, 0 <= get x v < p) -> forall v, 0 <= get (add_multiple nv p coef x (KV f)) v < p).
Proof.
  intros L. unfold add_multiple. destruct (Z.eqb_spec coef 0) as [-> | N]; [split; [exact L |]; split; [intros v _; rewrite Z.mul_0_l, Z.add_0_r; reflexivity | auto] |]. rewrite map_length, seq_length. split; [reflexivity |]. split.
  - intros v Hv. rewrite get_map_seq. apply Nat.ltb_lt in Hv. rewrite Hv. rewrite madd_c, mmul_c. reflexivity.
  - intros _ v. rewrite get_map_seq. destruct (Nat.ltb v nv); [apply madd_rng, Hp | pose proof ppos; lia].
Qed.
Lemma decode_spec fs : forall code x, length x = nv -> length (decode nv p code x (map (fun f => KV f) fs)) = nv /\
  (forall v, (v < nv)%nat -> get (decode nv p code x (map (fun f => KV f) fs)) v == get x v + dsum code fs v) /\
  ((forall v, 0 <= get x v < p) -> forall v, 0 <= get (decode nv p code x (map (fun f => KV f) fs)) v < p).
Proof.
  induction fs as [| f fs IH]; intros code x L; cbn [map decode dsum]; [split; [exact L |]; split; [intros v _; rewrite Z.add_0_r; reflexivity | auto] |].
  destruct (add_multiple_spec (code mod p) x f L) as (L1 & V1 & R1). destruct (IH (code / p) _ L1) as (L2 & V2 & R2). split; [exact L2 |]. split; [| intros Rx; apply R2, R1, Rx].
  intros v Hv. rewrite (V2 v Hv), (V1 v Hv), Z.add_assoc. reflexivity.
Qed.
Lemma dsum_kernel fs : (forall f, In f fs -> (f < nv)%nat /\ ~ In f pivots) -> forall code i, (i < length rows)%nat -> dotr (dsum code fs) i == 0.
Proof.
  induction fs as [| f fs IH]; intros F code i Hi; [unfold dotr; rewrite zsum_zero; [reflexivity |]; intros v _; cbn; lia |].
  transitivity ((code mod p) * dotr (get (KV f)) i + dotr (dsum (code / p) fs) i).
  - unfold dotr. rewrite <- zsum_scal, <- zsum_add. apply zsum_eqm. intros v _. cbn [dsum]. match goal with |- cong _ ?a ?b => replace a with b by lia end. reflexivity.
  - rewrite IH by (try exact Hi; intros g Hg; apply F; right; exact Hg). destruct (F f (or_introl eq_refl)). rewrite kv_kernel by assumption. rewrite Z.mul_0_r. reflexivity.
Qed.
Lemma dsum_digit fs g : (forall f, In f fs -> (f < nv)%nat) -> ~ In g pivots -> NoDup fs -> forall code, dsum code fs g = digit code fs g.
Proof.
  induction fs as [| f fs IH]; intros F N Nd code; cbn [dsum digit]; [reflexivity |]. inversion Nd as [| ? ? N1 N2]; subst. rewrite kv_other by (try exact N; apply F; left; reflexivity). unfold unit_at. rewrite Nat.eqb_sym.
  rewrite IH by (try assumption; intros h Hh; apply F; right; exact Hh). destruct (Nat.eqb_spec f g) as [<- | Q]; [| lia]. assert (forall code, digit code fs f = 0) as ->; [| lia].
  clear -N1. induction fs as [| h fs IH]; intros code; cbn [digit]; [reflexivity |]. destruct (Nat.eqb_spec h f) as [-> | _]; [destruct N1; left; reflexivity |]. apply IH. intros K. apply N1. right. exact K.
Qed.
Lemma digit_inj fs : NoDup fs -> forall c d, 0 <= c < p ^ Z.of_nat (length fs) -> 0 <= d < p ^ Z.of_nat (length fs) -> (forall g, In g fs -> digit c fs g = digit d fs g) -> c = d.
Proof.
  pose proof ppos as P. induction fs as [| f fs IH]; intros Nd c d Hc Hd H; [cbn in Hc, Hd; lia |]. inversion Nd as [| ? ? N1 N2]; subst. cbn [length] in *. rewrite Nat2Z.inj_succ, Z.pow_succ_r in Hc, Hd by lia.
  pose proof (H f (or_introl eq_refl)) as H0. cbn [digit] in H0. rewrite Nat.eqb_refl in H0. assert (c / p = d / p) as Q.
  { apply IH; [exact N2 | | |]; try (split; [apply Z.div_pos; lia | apply Z.div_lt_upper_bound; lia]). intros g Hg. specialize (H g (or_intror Hg)). cbn [digit] in H. destruct (Nat.eqb_spec f g) as [-> | _]; [contradiction | exact H]. }
  rewrite (Z.div_mod c p), (Z.div_mod d p) by lia. rewrite Q, H0. reflexivity.
Qed.
Lemma digit_surj fs (t : nat -> Z) : NoDup fs -> (forall v, 0 <= t v < p) -> exists c, 0 <= c < p ^ Z.of_nat (length fs) /\ forall g, In g fs -> digit c fs g = t g.
Proof.
  pose proof ppos as P. intros Nd T. induction fs as [| f fs IH]; [exists 0; split; [cbn; lia | intros g []] |]. inversion Nd as [| ? ? N1 N2]; subst. destruct (IH N2) as (c & Hc & H). exists (t f + p * c). cbn [length]. rewrite Nat2Z.inj_succ, Z.pow_succ_r by lia.
  pose proof (T f) as Tf. split; [nia |]. intros g Hg. cbn [digit]. destruct (Nat.eqb_spec f g) as [-> | N].
  - rewrite Z.mul_comm, Z_mod_plus_full. apply Z.mod_small, T.
  - destruct Hg as [-> | Hg]; [destruct N; reflexivity |]. rewrite Z.mul_comm, Z_div_plus_full, Z.div_small, Z.add_0_l by lia. apply H, Hg.
Qed.
End field.
