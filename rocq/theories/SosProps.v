(** C130: degree-2 Positivstellensatz refutations. *)
From Coq Require Import List ZArith Bool Lia.
Import ListNotations.
From Verif Require Import SosModel.
Open Scope Z_scope.

(** ** Maps as linear forms *)
Section Forms.
  Context {K : Type} (eqb : K -> K -> bool) (eqb_iff : forall a b, eqb a b = true <-> a = b).
  Definition mval (w : K -> Z) (m : list (K * Z)) : Z := fold_right (fun kv s => snd kv * w (fst kv) + s) 0 m.
  Definition good (P : K -> Prop) (m : list (K * Z)) : Prop := NoDup (map fst m) /\ forall k, In k (map fst m) -> P k.
  Lemma mval_put w k v m : mval w (put eqb k v m) = mval w m + (v - get eqb k m) * w k.
  Proof using eqb_iff.
    induction m as [|[k' c] m IH]; cbn [put get mval fold_right fst snd]; [lia|]. destruct (eqb k k') eqn:E; cbn [mval fold_right fst snd].
    - apply eqb_iff in E as ->. fold (mval w m). lia.
    - fold (mval w (put eqb k v m)). fold (mval w m). rewrite IH. lia.
  Qed.
  Lemma mval_bump w k v m : mval w (bump eqb k v m) = mval w m + v * w k.
  Proof using eqb_iff. unfold bump. rewrite mval_put. lia. Qed.
  Lemma mval_scaled w k o : forall m, mval w (scaled eqb k m o) = mval w m + k * mval w o.
  Proof using eqb_iff.
    unfold scaled. induction o as [|[x c] o IH]; intros m; cbn [fold_left fst snd]; [cbn; lia|]. rewrite IH, mval_bump. cbn [mval fold_right fst snd]. fold (mval w o). lia.
  Qed.
  Lemma mval_retain w (m : list (K * Z)) : mval w (retain m) = mval w m.
  Proof using.
    unfold retain. induction m as [|[x c] m IH]; [reflexivity|]. cbn [filter snd]. destruct (Z.eqb_spec c 0); cbn [negb mval fold_right fst snd].
    - fold (mval w m). rewrite <- IH. subst. unfold mval. lia.
    - fold (mval w m). rewrite <- IH. reflexivity.
  Qed.
  Lemma mval_neg w (m : list (K * Z)) : mval w (map (fun kv => (fst kv, - snd kv)) m) = - mval w m.
  Proof using. induction m as [|[x c] m IH]; [reflexivity|]. cbn [map mval fold_right fst snd]. unfold mval in IH. rewrite IH. lia. Qed.
  Lemma get_absent k m : ~ In k (map fst m) -> get eqb k m = 0.
  Proof using eqb_iff.
    induction m as [|[x c] m IH]; cbn [map fst get In]; [reflexivity|]. intros H. destruct (eqb k x) eqn:E; [apply eqb_iff in E; subst; tauto|]. apply IH. tauto.
  Qed.
  Lemma put_keys k v m x : In x (map fst (put eqb k v m)) -> x = k \/ In x (map fst m).
  Proof using eqb_iff.
    induction m as [|[y c] m IH]; cbn [put map fst In]; [intros [<- | []]; auto|]. destruct (eqb k y) eqn:E; cbn [map fst In]; [auto|]. intros [<- | H]; [auto|]. destruct (IH H); auto.
  Qed.
  Lemma put_good P k v m : good P m -> P k -> good P (put eqb k v m).
  Proof using eqb_iff.
    intros [N A] Pk. split.
    - clear A. induction m as [|[y c] m IH]; cbn [put map fst]; [constructor; [intros []|constructor]|]. inversion N as [|? ? Ny Nm]; subst. destruct (eqb k y) eqn:E; cbn [map fst]; [exact N|].
      constructor; [|exact (IH Nm)]. intros H. apply put_keys in H as [-> | H]; [|contradiction]. rewrite (proj2 (eqb_iff k k) eq_refl) in E. discriminate.
    - intros x H. apply put_keys in H as [-> | H]; auto.
  Qed.
  Lemma scaled_good P k o : forall m, good P m -> (forall x, In x (map fst o) -> P x) -> good P (scaled eqb k m o).
  Proof using eqb_iff.
    unfold scaled. induction o as [|[x c] o IH]; intros m G A; cbn [fold_left]; [exact G|]. apply IH; [|intros y H; apply A; right; exact H]. apply put_good; [exact G|]. apply A. left. reflexivity.
  Qed.
  Lemma retain_keys (m : list (K * Z)) x : In x (map fst (retain m)) -> In x (map fst m).
  Proof using. intros H. apply in_map_iff in H as (kv & <- & H). apply filter_In in H as [H _]. apply in_map, H. Qed.
  Lemma retain_good P m : good P m -> good P (retain m).
  Proof using.
    intros [N A]. split; [|intros k H; apply A, retain_keys, H]. clear A. induction m as [|[y c] m IH]; [constructor|]. inversion N as [|? ? Ny Nm]; subst. unfold retain. cbn [filter snd].
    destruct (negb (c =? 0)); [|exact (IH Nm)]. cbn [map fst]. constructor; [|exact (IH Nm)]. intros H. apply Ny, retain_keys, H.
  Qed.
  Lemma neg_good P m : good P m -> good P (map (fun kv => (fst kv, - snd kv)) m).
  Proof using. unfold good. rewrite map_map. cbn [fst]. auto. Qed.
  Lemma mval_ext w w' m : (forall k, In k (map fst m) -> w k = w' k) -> mval w m = mval w' m.
  Proof using.
    induction m as [|[y c] m IH]; intros H; [reflexivity|]. cbn [mval fold_right fst snd]. fold (mval w m). fold (mval w' m). rewrite IH by (intros k Hk; apply H; right; exact Hk). rewrite (H y (or_introl eq_refl)). reflexivity.
  Qed.
  Lemma mval_zero m : mval (fun _ => 0) m = 0.
  Proof using. induction m as [|[y c] m IH]; [reflexivity|]. cbn [mval fold_right fst snd]. fold (mval (fun _ => 0) m). lia. Qed.
  Lemma mval_zeros w (m : list (K * Z)) : forallb (fun kv => snd kv =? 0) m = true -> mval w m = 0.
  Proof using.
    induction m as [|[y c] m IH]; [reflexivity|]. cbn [forallb snd mval fold_right fst]. intros H. apply andb_true_iff in H as [E H]. apply Z.eqb_eq in E. fold (mval w m). rewrite (IH H). lia.
  Qed.
  Lemma mval_at m k c : NoDup (map fst m) -> In (k, c) m -> mval (fun x => if eqb k x then 1 else 0) m = c.
  Proof using eqb_iff.
    induction m as [|[y d] m IH]; intros N H; [destruct H|]. destruct H as [H | H]; inversion N as [|? ? Ny Nm]; subst; cbn [mval fold_right fst snd]; fold (mval (fun x => if eqb k x then 1 else 0) m).
    - injection H as <- <-. rewrite (proj2 (eqb_iff y y) eq_refl). rewrite (mval_ext _ (fun _ => 0)), mval_zero; [lia|]. intros x Hx. destruct (eqb y x) eqn:E; [|reflexivity]. apply eqb_iff in E. subst. contradiction.
    - rewrite (IH Nm H). destruct (eqb k y) eqn:E; [|lia]. apply eqb_iff in E. subst. exfalso. apply Ny, (in_map fst _ _ H).
  Qed.
End Forms.
Lemma nat_iff : forall a b : nat, Nat.eqb a b = true <-> a = b. Proof. exact Nat.eqb_eq. Qed.
Lemma pair_iff : forall a b : nat * nat, pair_eqb a b = true <-> a = b.
Proof. intros [a b] [c d]. unfold pair_eqb. cbn. rewrite andb_true_iff, !Nat.eqb_eq. split; [intros [-> ->]; reflexivity|intros [= -> ->]; auto]. Qed.

(** ** Polynomials *)
(** The value as a form in independent [x] and [z], and at a point. *)
Definition fval (wx : nat -> Z) (wz : nat * nat -> Z) (p : poly) : Z := pc p + mval wx (lin p) + mval wz (quad p).
Definition pval (a : nat -> Z) (p : poly) : Z := fval a (fun ij => a (fst ij) * a (snd ij)) p.
Lemma fval_add wx wz p o : fval wx wz (add p o) = fval wx wz p + fval wx wz o.
Proof. unfold fval, add, prune. cbn [pc lin quad]. rewrite !mval_retain, (mval_scaled Nat.eqb nat_iff), (mval_scaled pair_eqb pair_iff). lia. Qed.
Lemma fval_neg wx wz p : fval wx wz (neg p) = - fval wx wz p.
Proof. unfold fval, neg. cbn [pc lin quad]. rewrite !mval_neg. lia. Qed.
Lemma fval_sub wx wz p o : fval wx wz (sub p o) = fval wx wz p - fval wx wz o.
Proof. unfold sub. rewrite fval_add, fval_neg. lia. Qed.
Definition boolean (a : nat -> Z) : Prop := forall i, a i = 0 \/ a i = 1.
Lemma mul_linear_val a p q : boolean a -> quad p = [] -> quad q = [] -> pval a (mul_linear p q) = pval a p * pval a q.
Proof.
  intros B Qp Qq. unfold pval, fval at 1, mul_linear, prune. cbn [pc lin quad]. rewrite !mval_retain. set (wz := fun ij : nat * nat => a (fst ij) * a (snd ij)).
  set (rv := fun r : nmap * qmap => mval a (fst r) + mval wz (snd r)).
  assert (C : forall i j v r, rv (cross i j v r) = rv r + v * a i * a j).
  { intros i j v r. unfold rv, cross. destruct (Nat.eqb_spec i j) as [-> | N]; cbn [fst snd].
    - rewrite (mval_bump Nat.eqb nat_iff). destruct (B j) as [E | E]; rewrite E; lia.
    - rewrite (mval_bump pair_eqb pair_iff). unfold wz. cbn [fst snd]. destruct (Nat.min_spec i j) as [[_ E1] | [_ E1]], (Nat.max_spec i j) as [[_ E2] | [_ E2]]; rewrite E1, E2; try lia. }
  assert (I : forall i ai lb r, rv (fold_left (fun r (bj : nat * Z) => cross i (fst bj) (ai * snd bj) r) lb r) = rv r + ai * a i * mval a lb).
  { intros i ai lb. induction lb as [|[j bj] lb IH]; intros r; cbn [fold_left fst snd]; [cbn; lia|]. rewrite IH, C. cbn [mval fold_right fst snd]. fold (mval a lb). lia. }
  assert (O : forall lb la r, rv (fold_left (fun r (ai : nat * Z) => fold_left (fun r (bj : nat * Z) => cross (fst ai) (fst bj) (snd ai * snd bj) r) lb r) la r) = rv r + mval a la * mval a lb).
  { intros lb la. induction la as [|[i ai] la IH]; intros r; cbn [fold_left fst snd]; [cbn; lia|]. rewrite IH, I. cbn [mval fold_right fst snd]. fold (mval a la). lia. }
  pose proof (O (lin q) (lin p) (scaled Nat.eqb (pc p) (scaled Nat.eqb (pc q) [] (lin p)) (lin q), [])) as H. unfold rv in H. cbn [fst snd] in H. rewrite !(mval_scaled Nat.eqb nat_iff) in H. unfold wz in *.
  unfold fval. rewrite Qp, Qq. change (mval _ (@nil (nat * Z))) with 0 in H. cbn [mval fold_right] in *. lia.
Qed.

(** ** The lift holds at every Boolean model *)
Definition holds (f : nat -> bool) (clauses : list (list lit)) : Prop := forall c, In c clauses -> exists l, In l c /\ f (fst l) = snd l.
Definition point (f : nat -> bool) (i : nat) : Z := if f i then 1 else 0.
Lemma point_boolean f : boolean (point f).
Proof. intros i. unfold point. destruct (f i); auto. Qed.
Lemma pval_var a i : pval a (var i) = a i.
Proof. unfold pval, fval, var. cbn [pc lin quad mval fold_right fst snd]. lia. Qed.
Lemma pval_const a c : pval a (constant c) = c.
Proof. unfold pval, fval, constant. cbn [pc lin quad mval fold_right]. lia. Qed.
Lemma pval_z a i j : pval a (Poly 0 [] [((i, j), 1)]) = a i * a j.
Proof. unfold pval, fval. cbn [pc lin quad mval fold_right fst snd]. lia. Qed.
Lemma pval_add a p q : pval a (add p q) = pval a p + pval a q. Proof. apply fval_add. Qed.
Lemma pval_sub a p q : pval a (sub p q) = pval a p - pval a q. Proof. apply fval_sub. Qed.
Lemma pval_neg a p : pval a (neg p) = - pval a p. Proof. apply fval_neg. Qed.
Lemma quad_add p q : quad p = [] -> quad q = [] -> quad (add p q) = [].
Proof. intros A B. unfold add, prune. cbn [quad]. rewrite A, B. reflexivity. Qed.
Lemma quad_neg p : quad p = [] -> quad (neg p) = [].
Proof. intros A. unfold neg. cbn [quad]. rewrite A. reflexivity. Qed.
Lemma quad_lit l : quad (lit_value l) = [].
Proof. unfold lit_value. destruct (snd l); [reflexivity|]. apply quad_add; [reflexivity|apply quad_neg; reflexivity]. Qed.
Definition clause_poly (c : list lit) : poly := fold_left (fun cl l => add cl (lit_value l)) c (constant (-1)).
Lemma lit_val f l : pval (point f) (lit_value l) = if eqb (f (fst l)) (snd l) then 1 else 0.
Proof. unfold lit_value. destruct (snd l); rewrite ?pval_sub, ?pval_const, pval_var; unfold point; destruct (f (fst l)); reflexivity. Qed.
Definition true_lit (f : nat -> bool) (l : lit) : bool := eqb (f (fst l)) (snd l).
Lemma clause_poly_ok f c : (exists l, In l c /\ f (fst l) = snd l) -> quad (clause_poly c) = [] /\ 0 <= pval (point f) (clause_poly c).
Proof.
  intros H. unfold clause_poly. assert (G : forall c p, quad p = [] -> quad (fold_left (fun cl l => add cl (lit_value l)) c p) = [] /\ pval (point f) p + (if existsb (true_lit f) c then 1 else 0) <= pval (point f) (fold_left (fun cl l => add cl (lit_value l)) c p)).
  { clear. induction c as [|l c IH]; intros p Q; cbn [fold_left existsb]; [split; [exact Q|lia]|]. destruct (IH (add p (lit_value l))) as [A B]; [apply quad_add; [exact Q|apply quad_lit]|]. split; [exact A|].
    rewrite pval_add, lit_val in B. fold (true_lit f l) in B. destruct (true_lit f l), (existsb (true_lit f) c); cbn [orb]; lia. }
  destruct (G c (constant (-1)) eq_refl) as [A B]. split; [exact A|]. rewrite pval_const in B. replace (existsb (true_lit f) c) with true in B; [lia|]. symmetry. apply existsb_exists. destruct H as (l & Hl & E). exists l. split; [exact Hl|]. unfold true_lit. rewrite E. apply eqb_reflx.
Qed.
Theorem C130_lift_holds n clauses f : holds f clauses -> forall p, In p (lift_polys n clauses) -> pval (point f) p <= 0.
Proof.
  intros S p H. pose proof (point_boolean f) as B. unfold lift_polys in H. apply in_app_iff in H as [H | H]; [|apply in_app_iff in H as [H | H]].
  - apply in_flat_map in H as (i & _ & [<- | [<- | []]]); rewrite pval_neg, ?pval_sub, ?pval_const, pval_var; destruct (B i); lia.
  - apply in_flat_map in H as (i & _ & H). apply in_flat_map in H as (j & _ & H). unfold pair_polys in H. cbn [map] in H.
    destruct (B i) as [Ei | Ei], (B j) as [Ej | Ej];
      repeat (destruct H as [<- | H]; [rewrite pval_neg, ?pval_add, ?pval_sub, ?pval_add, ?pval_sub, ?pval_add, ?pval_sub, ?pval_const, ?pval_var, ?pval_z; rewrite ?Ei, ?Ej; lia|]); destruct H.
  - apply in_flat_map in H as (c & Hc & H). destruct (S c Hc) as (l & Hl & E). unfold clause_polys in H. destruct c as [|l0 c]; [destruct Hl|]. fold (clause_poly (l0 :: c)) in H.
    destruct (clause_poly_ok f (l0 :: c) (ex_intro _ l (conj Hl E))) as [Q V]. destruct H as [<- | H]; [rewrite pval_neg; lia|].
    apply in_flat_map in H as (j & _ & [<- | [<- | []]]); rewrite pval_neg, (mul_linear_val (point f) _ _ B Q) by reflexivity; rewrite ?pval_sub, ?pval_const, pval_var; destruct (B j) as [Ej | Ej]; rewrite Ej; lia.
Qed.

(** ** The certificate check *)
Lemma accumulate_val polys wx wz cert : forall s s', accumulate polys cert s = Some s' ->
  fval wx wz s' = fval wx wz s + mval (fun i => fval wx wz (nth i polys (constant 0))) cert /\
  (forall i k, In (i, k) cert -> 0 <= k /\ (i < length polys)%nat).
Proof.
  induction cert as [|[i k] cert IH]; intros s s'; cbn [accumulate]; [intros [= <-]; split; [cbn; lia|intros i k []]|].
  destruct (Z.ltb_spec k 0) as [|Hk]; [discriminate|]. destruct (nth_error polys i) as [p|] eqn:E; [|discriminate]. intros H. apply IH in H as [A C]. split.
  - rewrite A. set (W := fun i => fval wx wz (nth i polys (constant 0))). change (mval W ((i, k) :: cert)) with (k * W i + mval W cert). unfold W at 2. rewrite (nth_error_nth polys i _ E).
    assert (E1 : fval wx wz (Poly (pc s + k * pc p) (scaled Nat.eqb k (lin s) (lin p)) (scaled pair_eqb k (quad s) (quad p))) = fval wx wz s + k * fval wx wz p).
    { unfold fval. cbn [pc lin quad]. rewrite (mval_scaled Nat.eqb nat_iff), (mval_scaled pair_eqb pair_iff). lia. }
    rewrite E1. lia.
  - intros i' k' [[= <- <-] | H']; [split; [exact Hk|]|exact (C i' k' H')]. apply nth_error_Some. rewrite E. discriminate.
Qed.
Lemma mval_nonpos {K} (w : K -> Z) m : (forall k c, In (k, c) m -> 0 <= c /\ w k <= 0) -> mval w m <= 0.
Proof.
  induction m as [|[k c] m IH]; intros H; [cbn; lia|]. cbn [mval fold_right fst snd]. fold (mval w m). assert (mval w m <= 0) by (apply IH; intros k' c' H'; apply H; right; exact H'). destruct (H k c (or_introl eq_refl)). nia.
Qed.
(** A certificate that checks proves that the clauses have no model; undeclared variables are allowed. *)
Theorem C130_check_sound n clauses cert : check_sos_certificate n clauses cert = true -> ~ exists f, holds f clauses.
Proof.
  unfold check_sos_certificate. destruct cert as [|e cert]; [discriminate|]. destruct (accumulate _ _ _) as [s|] eqn:A; [|discriminate]. intros H [f S].
  apply andb_true_iff in H as [H Hc]. apply andb_true_iff in H as [Hl Hq]. apply Z.ltb_lt in Hc.
  set (a := point f). destruct (accumulate_val _ a (fun ij => a (fst ij) * a (snd ij)) _ _ _ A) as [V R]. change (fval a _ s) with (pval a s) in V. change (fval a _ (constant 0)) with (pval a (constant 0)) in V. rewrite pval_const in V.
  assert (W : pval a s = pc s) by (unfold pval, fval; rewrite (mval_zeros a _ Hl), (mval_zeros _ _ Hq); lia).
  assert (N : mval (fun i => pval a (nth i (lift_polys n clauses) (constant 0))) (e :: cert) <= 0).
  { apply mval_nonpos. intros k c Hk. destruct (R k c Hk) as [K1 K2]. split; [exact K1|]. apply (C130_lift_holds n clauses f S), nth_In, K2. }
  unfold pval at 1 in N. unfold pval in W, V. unfold pval in *. lia.
Qed.

(** ** Ranges: the lift over declared variables *)
Definition okp (n : nat) (p : poly) : Prop := good (fun i => (i < n)%nat) (lin p) /\ good (fun ij => (fst ij < n)%nat /\ (snd ij < n)%nat) (quad p).
Lemma good_nil {K} (P : K -> Prop) : good P []. Proof. split; [constructor|intros k []]. Qed.
Lemma good_one {K} (P : K -> Prop) k v : P k -> good P [(k, v)].
Proof. intros H. split; [constructor; [intros []|constructor]|intros x [<- | []]; exact H]. Qed.
Lemma ok_const n c : okp n (constant c). Proof. split; apply good_nil. Qed.
Lemma ok_var n i : (i < n)%nat -> okp n (var i). Proof. intros H. split; [apply good_one, H|apply good_nil]. Qed.
Lemma ok_add n p q : okp n p -> okp n q -> okp n (add p q).
Proof. intros [A B] [C D]. split; apply retain_good; [apply (scaled_good Nat.eqb nat_iff); [exact A|apply C]|apply (scaled_good pair_eqb pair_iff); [exact B|apply D]]. Qed.
Lemma ok_neg n p : okp n p -> okp n (neg p). Proof. intros [A B]. split; apply neg_good; assumption. Qed.
Lemma ok_sub n p q : okp n p -> okp n q -> okp n (sub p q). Proof. intros A B. apply ok_add; [exact A|apply ok_neg, B]. Qed.
Lemma ok_mul n p q : okp n p -> okp n q -> okp n (mul_linear p q).
Proof.
  intros [A _] [C _]. set (okr := fun r : nmap * qmap => good (fun i => (i < n)%nat) (fst r) /\ good (fun ij => (fst ij < n)%nat /\ (snd ij < n)%nat) (snd r)).
  assert (X : forall i j v r, (i < n)%nat -> (j < n)%nat -> okr r -> okr (cross i j v r)).
  { intros i j v r Hi Hj [R1 R2]. unfold cross. destruct (Nat.eqb i j); split; cbn [fst snd]; try assumption; [apply (put_good Nat.eqb nat_iff); assumption|apply (put_good pair_eqb pair_iff); [assumption|cbn [fst snd]; lia]]. }
  assert (I : forall i ai lb r, (i < n)%nat -> (forall x, In x (map fst lb) -> (x < n)%nat) -> okr r -> okr (fold_left (fun r (bj : nat * Z) => cross i (fst bj) (ai * snd bj) r) lb r)).
  { intros i ai lb. induction lb as [|[j bj] lb IH]; intros r Hi Hb R; cbn [fold_left fst snd]; [exact R|]. apply IH; [exact Hi|intros x Hx; apply Hb; right; exact Hx|]. apply X; [exact Hi|apply Hb; left; reflexivity|exact R]. }
  assert (O : forall lb la r, (forall x, In x (map fst lb) -> (x < n)%nat) -> (forall x, In x (map fst la) -> (x < n)%nat) -> okr r -> okr (fold_left (fun r (ai : nat * Z) => fold_left (fun r (bj : nat * Z) => cross (fst ai) (fst bj) (snd ai * snd bj) r) lb r) la r)).
  { intros lb la. induction la as [|[i ai] la IH]; intros r Hb Ha R; cbn [fold_left fst snd]; [exact R|]. apply IH; [exact Hb|intros x Hx; apply Ha; right; exact Hx|]. apply I; [apply Ha; left; reflexivity|exact Hb|exact R]. }
  destruct (O (lin q) (lin p) (scaled Nat.eqb (pc p) (scaled Nat.eqb (pc q) [] (lin p)) (lin q), [])) as [R1 R2]; [apply C|apply A| |split; apply retain_good; assumption].
  split; [|apply good_nil]. cbn [fst]. apply (scaled_good Nat.eqb nat_iff); [|apply C]. apply (scaled_good Nat.eqb nat_iff); [apply good_nil|apply A].
Qed.
Definition declared (n : nat) (clauses : list (list lit)) : Prop := forall c l, In c clauses -> In l c -> (fst l < n)%nat.
Lemma lift_ok n clauses : declared n clauses -> forall p, In p (lift_polys n clauses) -> okp n p.
Proof.
  intros D p H. unfold lift_polys in H. apply in_app_iff in H as [H | H]; [|apply in_app_iff in H as [H | H]].
  - apply in_flat_map in H as (i & Hi & H). apply in_seq in Hi. destruct H as [<- | [<- | []]]; apply ok_neg; [apply ok_var; lia|apply ok_sub; [apply ok_const|apply ok_var; lia]].
  - apply in_flat_map in H as (i & Hi & H). apply in_flat_map in H as (j & Hj & H). apply in_seq in Hi, Hj. assert (Vi : okp n (var i)) by (apply ok_var; lia). assert (Vj : okp n (var j)) by (apply ok_var; lia).
    assert (Vz : okp n (Poly 0 [] [((i, j), 1)])) by (split; [apply good_nil|apply good_one; cbn [fst snd]; lia]). pose proof (ok_const n 1) as V1. unfold pair_polys in H. cbn [map] in H.
    repeat (destruct H as [<- | H]; [apply ok_neg; repeat (first [assumption | apply ok_sub | apply ok_add])|]); destruct H.
  - apply in_flat_map in H as (c & Hc & H). assert (V : okp n (clause_poly c)).
    { unfold clause_poly. pose proof (D c) as Dc. assert (G : forall c p, (forall l, In l c -> (fst l < n)%nat) -> okp n p -> okp n (fold_left (fun cl l => add cl (lit_value l)) c p)).
      { clear. induction c as [|l c IH]; intros p D V; cbn [fold_left]; [exact V|]. apply IH; [intros k Hk; apply D; right; exact Hk|]. apply ok_add; [exact V|]. unfold lit_value.
        assert (Vl : okp n (var (fst l))) by (apply ok_var, D; left; reflexivity). destruct (snd l); [exact Vl|apply ok_sub; [apply ok_const|exact Vl]]. }
      apply G; [|apply ok_const]. intros l Hl. exact (Dc l Hc Hl). }
    unfold clause_polys in H. destruct c as [|l0 c]; [destruct H as [<- | []]; apply ok_const|]. fold (clause_poly (l0 :: c)) in H. destruct H as [<- | H]; [apply ok_neg, V|].
    apply in_flat_map in H as (j & Hj & H). apply in_seq in Hj. destruct H as [<- | [<- | []]]; apply ok_neg, ok_mul; try exact V; [apply ok_var; lia|apply ok_sub; [apply ok_const|apply ok_var; lia]].
Qed.

(** ** Rows *)
Definition rval (w : nat -> Z) (r : row) : Z := rconst r + mval w (coeffs r).
Lemma zindex_inj n i j i' j' : (j < n)%nat -> (j' < n)%nat -> zindex n i j = zindex n i' j' -> i = i' /\ j = j'.
Proof. unfold zindex. intros H H' E. assert (i = i') by nia. subst. split; [reflexivity|lia]. Qed.
Lemma row_val n p idx w : okp n p -> rval w (poly_to_row p n idx) = fval w (fun ij => w (zindex n (fst ij) (snd ij))) p.
Proof.
  intros [[_ L] [N Q]]. unfold rval, poly_to_row, fval. cbn [rconst coeffs]. set (wz := fun ij : nat * nat => w (zindex n (fst ij) (snd ij))).
  assert (G : forall q m, NoDup (map fst q) -> (forall ij, In ij (map fst q) -> (fst ij < n)%nat /\ (snd ij < n)%nat) -> (forall ij, In ij (map fst q) -> ~ In (zindex n (fst ij) (snd ij)) (map fst m)) ->
    mval w (fold_left (fun m (q : (nat * nat) * Z) => put Nat.eqb (zindex n (fst (fst q)) (snd (fst q))) (snd q) m) q m) = mval w m + mval wz q).
  { induction q as [|[ij v] q IH]; intros m Nq Rq A; cbn [fold_left fst snd]; [cbn; lia|]. cbn [map fst] in Nq. inversion Nq as [|? ? Ni Nq']; subst. rewrite IH.
    - rewrite (mval_put Nat.eqb nat_iff), (get_absent Nat.eqb nat_iff) by (apply A; left; reflexivity). change (mval wz ((ij, v) :: q)) with (v * wz ij + mval wz q). unfold wz at 2. lia.
    - exact Nq'.
    - intros x Hx. apply Rq. right. exact Hx.
    - intros x Hx K. apply (put_keys Nat.eqb nat_iff) in K as [K | K]; [|exact (A x (or_intror Hx) K)]. destruct (Rq x (or_intror Hx)) as [_ X2]. destruct (Rq ij (or_introl eq_refl)) as [_ Y2].
      apply zindex_inj in K as [K1 K2]; [|exact X2|exact Y2]. apply Ni. cbn [map fst] in Hx. replace ij with x; [exact Hx|]. destruct x, ij. cbn in *. congruence. }
  rewrite G; [lia|exact N|exact Q|]. intros ij Hij K. apply L in K. unfold zindex in K. lia.
Qed.
Lemma acc_val w k src : forall dst m, acc dst src k = Some m -> mval w m = mval w dst + k * mval w src.
Proof.
  induction src as [|[v c] src IH]; intros dst m; cbn [acc]; [intros [= <-]; cbn; lia|]. destruct (mag_cap <? _); [discriminate|]. intros H. apply IH in H. rewrite H, (mval_put Nat.eqb nat_iff).
  change (mval w ((v, c) :: src)) with (c * w v + mval w src). lia.
Qed.
Definition prov_ok (len : nat) (m : nmap) : Prop := forall i c, In (i, c) m -> 0 <= c /\ (i < len)%nat.
Lemma get_nonneg len v m : prov_ok len m -> 0 <= get Nat.eqb v m.
Proof.
  induction m as [|[x c] m IH]; intros P; cbn [get]; [lia|]. destruct (Nat.eqb v x); [apply (P x c); left; reflexivity|]. apply IH. intros i d H. apply P. right. exact H.
Qed.
Lemma put_prov len v e m : prov_ok len m -> 0 <= e -> (v < len)%nat -> prov_ok len (put Nat.eqb v e m).
Proof.
  intros P He Hv. induction m as [|[x c] m IH]; cbn [put]; intros i d H.
  - destruct H as [[= <- <-] | []]. auto.
  - destruct (Nat.eqb_spec v x) as [-> | Ne].
    + destruct H as [[= <- <-] | H]; [auto|]. apply P. right. exact H.
    + destruct H as [[= <- <-] | H]; [apply P; left; reflexivity|]. apply IH; [|exact H]. intros i' d' H'. apply P. right. exact H'.
Qed.
Lemma acc_prov len k src : forall dst m, 0 <= k -> prov_ok len dst -> prov_ok len src -> acc dst src k = Some m -> prov_ok len m.
Proof.
  induction src as [|[v c] src IH]; intros dst m Hk D S; cbn [acc]; [intros [= <-]; exact D|]. destruct (mag_cap <? _); [discriminate|]. destruct (S v c (or_introl eq_refl)) as [Hc Hv]. apply IH; [exact Hk| |intros i d H; apply S; right; exact H].
  apply put_prov; [exact D| |exact Hv]. pose proof (get_nonneg len v dst D). nia.
Qed.
Lemma retain_prov len m : prov_ok len m -> prov_ok len (retain m).
Proof. intros P i c H. apply filter_In in H as [H _]. exact (P i c H). Qed.
Lemma combine_ok r ka o kb q : combine r ka o kb = Some q ->
  (forall w, rval w q = ka * rval w r + kb * rval w o) /\ (forall w, mval w (prov q) = ka * mval w (prov r) + kb * mval w (prov o)) /\
  (forall len, 0 <= ka -> 0 <= kb -> prov_ok len (prov r) -> prov_ok len (prov o) -> prov_ok len (prov q)).
Proof.
  unfold combine. destruct (acc [] (coeffs r) ka) as [c1|] eqn:E1; [|discriminate]. destruct (acc c1 (coeffs o) kb) as [c2|] eqn:E2; [|discriminate]. destruct (mag_cap <? _); [discriminate|].
  destruct (acc [] (prov r) ka) as [p1|] eqn:E3; [|discriminate]. destruct (acc p1 (prov o) kb) as [p2|] eqn:E4; [|discriminate]. intros [= <-]. split; [|split].
  - intros w. unfold rval. cbn [rconst coeffs]. rewrite mval_retain, (acc_val w kb _ _ _ E2), (acc_val w ka _ _ _ E1). change (mval w []) with 0. lia.
  - intros w. cbn [prov]. rewrite mval_retain, (acc_val w kb _ _ _ E4), (acc_val w ka _ _ _ E3). change (mval w []) with 0. lia.
  - intros len Ha Hb Pr Po. cbn [prov]. apply retain_prov. apply (acc_prov len kb (prov o) p1); [exact Hb| |exact Po|exact E4]. apply (acc_prov len ka (prov r) []); [exact Ha|intros i c []|exact Pr|exact E3].
Qed.

(** ** The elimination *)
Section Elimination.
  Variable orig : list row.
  Definition derived (r : row) : Prop := prov_ok (length orig) (prov r) /\ forall w, rval w r = mval (fun i => rval w (nth i orig (Row [] 0 []))) (prov r).
  Lemma combos_ok v pairs : forall next rows, (forall p n, In (p, n) pairs -> derived p /\ derived n /\ 0 < coeff p v /\ coeff n v < 0) -> (forall r, In r next -> derived r) -> combos v pairs next = Some rows -> forall r, In r rows -> derived r.
  Proof using.
    induction pairs as [|[p n] pairs IH]; intros next rows P N; cbn [combos]; [intros [= <-]; exact N|]. destruct (combine p (- coeff n v) n (coeff p v)) as [q|] eqn:C; [|discriminate]. destruct (row_cap <? _); [discriminate|].
    apply IH; [intros p' n' H; apply P; right; exact H|]. intros r H. apply in_app_iff in H as [H | [<- | []]]; [exact (N r H)|]. destruct (P p n (or_introl eq_refl)) as ([Pp Vp] & [Pn Vn] & Hp & Hn). apply combine_ok in C as (A & B & D). split.
    - apply D; [lia|lia|exact Pp|exact Pn].
    - intros w. rewrite A, B, Vp, Vn. reflexivity.
  Qed.
  Lemma contradiction_ok rows p : (forall r, In r rows -> derived r) -> contradiction rows = Some p -> exists k, 0 < k /\ prov_ok (length orig) p /\ forall w, mval (fun i => rval w (nth i orig (Row [] 0 []))) p = k.
  Proof using.
    intros R. unfold contradiction. destruct (find _ rows) as [r|] eqn:F; [|discriminate]. intros [= <-]. apply find_some in F as [Hr E]. destruct (coeffs r) eqn:C; [|discriminate]. apply Z.ltb_lt in E. destruct (R r Hr) as [P V].
    exists (rconst r). split; [exact E|]. split; [exact P|]. intros w. rewrite <- V. unfold rval. rewrite C. cbn. lia.
  Qed.
  Lemma eliminate_ok vs : forall rows p, (forall r, In r rows -> derived r) -> eliminate vs rows = Some p -> exists k, 0 < k /\ prov_ok (length orig) p /\ forall w, mval (fun i => rval w (nth i orig (Row [] 0 []))) p = k.
  Proof using.
    induction vs as [|v vs IH]; intros rows p R; cbn [eliminate]; [apply contradiction_ok, R|]. destruct (combos v _ _) as [next|] eqn:C; [|discriminate].
    assert (N : forall r, In r next -> derived r).
    { refine (combos_ok v _ _ _ _ _ C).
      - intros a b H. apply in_prod_iff in H as [Ha Hb]. apply filter_In in Ha as [Ha Ea], Hb as [Hb Eb]. apply Z.ltb_lt in Ea, Eb. auto.
      - intros r H. apply filter_In in H as [H _]. exact (R r H). }
    destruct (contradiction next) as [q|] eqn:X; [intros [= <-]; exact (contradiction_ok next q N X)|]. apply IH, N.
  Qed.
End Elimination.
Lemma rows_from_nth n ps : forall idx i, (i < length ps)%nat -> nth i (rows_from n idx ps) (Row [] 0 []) = poly_to_row (nth i ps (constant 0)) n (idx + i).
Proof.
  induction ps as [|p ps IH]; intros idx i H; cbn in H; [lia|]. destruct i as [|i]; cbn [rows_from nth]; [f_equal; lia|]. rewrite IH by lia. f_equal. lia.
Qed.
Lemma rows_from_length n ps : forall idx, length (rows_from n idx ps) = length ps.
Proof. induction ps as [|p ps IH]; intros idx; cbn [rows_from length]; [reflexivity|]. rewrite IH. reflexivity. Qed.
Lemma accumulate_some polys cert : forall s, prov_ok (length polys) cert -> NoDup (map fst (lin s)) -> NoDup (map fst (quad s)) ->
  exists s', accumulate polys cert s = Some s' /\ NoDup (map fst (lin s')) /\ NoDup (map fst (quad s')).
Proof.
  induction cert as [|[i k] cert IH]; intros s P N1 N2; cbn [accumulate]; [eauto|]. destruct (P i k (or_introl eq_refl)) as [Hk Hi]. destruct (Z.ltb_spec k 0); [lia|].
  destruct (nth_error polys i) as [p|] eqn:E; [|apply nth_error_None in E; lia]. apply IH; [intros j c H'; apply P; right; exact H'| |]; cbn [lin quad].
  - apply (scaled_good Nat.eqb nat_iff (fun _ => True) k (lin p) (lin s)); [split; [exact N1|auto]|auto].
  - apply (scaled_good pair_eqb pair_iff (fun _ => True) k (quad p) (quad s)); [split; [exact N2|auto]|auto].
Qed.
(** Every certificate the elimination returns passes the independent check. *)
Theorem C130_certificate_checks n clauses cert : declared n clauses -> sos_certificate n clauses = Some cert -> check_sos_certificate n clauses cert = true.
Proof.
  intros D. unfold sos_certificate. destruct (Nat.ltb max_vars n); [discriminate|]. set (ps := lift_polys n clauses). set (rows := rows_from n 0 ps). intros H.
  assert (Len : length rows = length ps) by apply rows_from_length.
  assert (R : forall r, In r rows -> derived rows r).
  { intros r Hr. destruct (In_nth rows r (Row [] 0 []) Hr) as (i & Hi & <-). assert (Pi : prov (nth i rows (Row [] 0 [])) = [(i, 1)]) by (unfold rows; rewrite rows_from_nth by lia; reflexivity). split; rewrite Pi.
    - intros j c [[= <- <-] | []]. split; [lia|exact Hi].
    - intros w. cbn [mval fold_right fst snd]. lia. }
  assert (X : exists k, 0 < k /\ prov_ok (length rows) cert /\ forall w, mval (fun i => rval w (nth i rows (Row [] 0 []))) cert = k).
  { unfold farkas_refute in H. destruct (contradiction rows) as [q|] eqn:C; [injection H as <-; exact (contradiction_ok rows rows q R C)|exact (eliminate_ok rows _ rows cert R H)]. }
  destruct X as (k & Hk & P & V). rewrite Len in P. destruct (accumulate_some ps cert (constant 0) P) as (s & As & N1 & N2); [constructor|constructor|].
  assert (F : forall wx wz, fval wx wz s = k).
  { intros wx wz. destruct (accumulate_val ps wx wz cert _ _ As) as [A _]. rewrite A. change (fval wx wz (constant 0)) with 0.
    set (w := fun x => if Nat.ltb x n then wx x else wz (((x - n) / n)%nat, ((x - n) mod n)%nat)). rewrite <- (V w). rewrite Z.add_0_l. apply mval_ext. intros i Hi. apply in_map_iff in Hi as ([j c] & <- & Hj). cbn [fst]. destruct (P j c Hj) as [_ Lj].
    unfold rows. rewrite rows_from_nth by exact Lj. assert (O : okp n (nth j ps (constant 0))) by (apply (lift_ok n clauses D), nth_In, Lj). rewrite (row_val n _ _ w O). destruct O as [[_ O1] [_ O2]]. unfold fval. f_equal; [f_equal|].
    - apply mval_ext. intros x Hx. unfold w. rewrite (proj2 (Nat.ltb_lt x n) (O1 x Hx)). reflexivity.
    - apply mval_ext. intros [a b] Hx. destruct (O2 _ Hx) as [_ B]. cbn [fst snd] in *. unfold w, zindex. replace (Nat.ltb (n + a * n + b) n) with false by (symmetry; apply Nat.ltb_ge; lia).
      replace (n + a * n + b - n)%nat with (b + a * n)%nat by lia. rewrite Nat.div_add, Nat.mod_add, Nat.div_small, Nat.mod_small by lia. reflexivity. }
  assert (F0 : pc s = k). { rewrite <- (F (fun _ => 0) (fun _ => 0)). unfold fval. rewrite !mval_zero. lia. }
  unfold check_sos_certificate. destruct cert as [|e cert]; [specialize (V (fun _ => 0)); cbn in V; lia|]. fold ps. rewrite As. rewrite F0. rewrite (proj2 (Z.ltb_lt 0 k) Hk), andb_true_r. apply andb_true_iff. split; apply forallb_forall; intros [x c] Hx; cbn [snd]; apply Z.eqb_eq.
  - pose proof (F (fun y => if Nat.eqb x y then 1 else 0) (fun _ => 0)) as G. unfold fval in G. rewrite mval_zero, (mval_at Nat.eqb nat_iff (lin s) x c N1 Hx) in G. lia.
  - pose proof (F (fun _ => 0) (fun y => if pair_eqb x y then 1 else 0)) as G. unfold fval in G. rewrite mval_zero, (mval_at pair_eqb pair_iff (quad s) x c N2 Hx) in G. lia.
Qed.
(** A refutation over declared variables is right. *)
Theorem C130_refutes_sound n clauses : declared n clauses -> sos_refutes n clauses = true -> ~ exists f, holds f clauses.
Proof.
  intros D. unfold sos_refutes. destruct (sos_certificate n clauses) as [cert|] eqn:E; [|discriminate]. intros _. exact (C130_check_sound n clauses cert (C130_certificate_checks n clauses cert D E)).
Qed.
Example C130_example : let cnf := [[(1%nat, true)]; [(0%nat, false); (1%nat, false)]; [(0%nat, true)]] in
  declared 2 cnf /\ sos_certificate 2 cnf = Some [(15%nat, 1); (20%nat, 1); (10%nat, 1)] /\ check_sos_certificate 2 cnf [(15%nat, 1); (20%nat, 1); (10%nat, 1)] = true /\
  sos_refutes 2 [[(1%nat, true); (0%nat, true)]] = false.
Proof.
  split; [|vm_compute; repeat split; reflexivity]. intros c l Hc Hl. repeat (destruct Hc as [<- | Hc]; [repeat (destruct Hl as [<- | Hl]; [cbn; lia|]); destruct Hl|]). destruct Hc.
Qed.
(** A variable beyond the declared ones shares its index with a product: a satisfiable formula is refuted, and the
    certificate fails the check. *)
Theorem C130_undeclared_refuted : exists n clauses cert f, holds f clauses /\ sos_certificate n clauses = Some cert /\ sos_refutes n clauses = true /\ check_sos_certificate n clauses cert = false.
Proof.
  exists 2%nat, [[(3%nat, true)]; [(0%nat, false)]]. destruct (sos_certificate 2 [[(3%nat, true)]; [(0%nat, false)]]) as [cert|] eqn:E.
  - exists cert, (fun v => Nat.eqb v 3). split; [|split; [reflexivity|split]].
    + intros c [<- | [<- | []]]; eexists; (split; [left; reflexivity|reflexivity]).
    + unfold sos_refutes. rewrite E. reflexivity.
    + destruct (check_sos_certificate 2 [[(3%nat, true)]; [(0%nat, false)]] cert) eqn:K; [|reflexivity]. exfalso. apply C130_check_sound in K. apply K. exists (fun v => Nat.eqb v 3).
      intros c [<- | [<- | []]]; eexists; (split; [left; reflexivity|reflexivity]).
  - exfalso. revert E. vm_compute. discriminate.
Qed.
(** Without overflow checks, multipliers near the end of the [i128] range pass for a formula with no clauses at all. *)
Theorem C130_wrapped_refuted : exists n clauses cert f, holds f clauses /\ NoDup (map fst cert) /\ (forall i m, In (i, m) cert -> 0 <= m < 2 ^ 127) /\
  check_wrapped n clauses cert = true /\ check_sos_certificate n clauses cert = false.
Proof.
  exists 2%nat, [], [(0%nat, 2 ^ 127 - 1); (1%nat, 2 ^ 127 - 1); (2%nat, 2 ^ 127 - 1); (3%nat, 2 ^ 127 - 1)], (fun _ => true). split; [intros c []|]. split; [repeat constructor; cbn; intuition discriminate|]. split; [|vm_compute; split; reflexivity].
  intros i m H. repeat (destruct H as [[= <- <-] | H]; [vm_compute; split; [discriminate|reflexivity]|]). destruct H.
Qed.
(** The empty clause is refuted within the variable limit. *)
Theorem C130_empty_clause n clauses : (n <= max_vars)%nat -> In [] clauses -> sos_refutes n clauses = true.
Proof.
  intros Hn He. unfold sos_refutes, sos_certificate. replace (Nat.ltb max_vars n) with false by (symmetry; apply Nat.ltb_ge, Hn). unfold farkas_refute, contradiction. set (rows := rows_from n 0 (lift_polys n clauses)).
  assert (X : exists i, In (Row [] 1 [(i, 1)]) rows).
  { assert (P : In (constant 1) (lift_polys n clauses)) by (unfold lift_polys; apply in_app_iff; right; apply in_app_iff; right; apply in_flat_map; exists []; split; [exact He|left; reflexivity]).
    apply (In_nth _ _ (constant 0)) in P as (i & Hi & E). exists (0 + i)%nat. change (Row [] 1 [((0 + i)%nat, 1)]) with (poly_to_row (constant 1) n (0 + i)). rewrite <- E. rewrite <- rows_from_nth by exact Hi. unfold rows. apply nth_In. rewrite rows_from_length. exact Hi. }
  destruct X as (i & Hi). destruct (find _ rows) as [r|] eqn:F; [reflexivity|]. pose proof (find_none _ _ F _ Hi) as N. cbn in N. discriminate.
Qed.
(** The lift contains, for every pair of variables, the four bounds of the product and the two squares. *)
Theorem C130_pairs n clauses i j (k : Z -> Z -> Z -> Z) : (i < j < n)%nat ->
  In k [(fun x y z => - z); (fun x y z => z - x); (fun x y z => z - y); (fun x y z => x + y - 1 - z); (fun x y z => - (x - 2 * z + y)); (fun x y z => - (1 - x - y + 2 * z))] ->
  exists p, In p (lift_polys n clauses) /\ forall wx wz, fval wx wz p = k (wx i) (wx j) (wz (i, j)).
Proof.
  intros [Hij Hj] Hk. assert (Sub : forall p, In p (pair_polys i j) -> In p (lift_polys n clauses)).
  { intros p Hp. unfold lift_polys. apply in_app_iff. right. apply in_app_iff. left. apply in_flat_map. exists i. split; [apply in_seq; lia|]. apply in_flat_map. exists j. split; [apply in_seq; lia|exact Hp]. }
  unfold pair_polys in Sub. cbn [map] in Sub. set (z := Poly 0 [] [((i, j), 1)]) in *.
  assert (Z0 : forall wx wz, fval wx wz z = wz (i, j)) by (intros; unfold fval, z, mval; cbn [pc lin quad fold_right fst snd]; lia).
  assert (V : forall wx wz v, fval wx wz (var v) = wx v) by (intros; unfold fval, var, mval; cbn [pc lin quad fold_right fst snd]; lia).
  assert (K : forall wx wz c, fval wx wz (constant c) = c) by (intros; unfold fval, constant, mval; cbn [pc lin quad fold_right]; lia).
  assert (Fin : forall p k, In p [neg z; neg (sub (var i) z); neg (sub (var j) z); neg (add (sub (sub z (var i)) (var j)) (constant 1)); neg (sub (sub (add (var i) (var j)) z) z); neg (add (add (sub (sub (constant 1) (var i)) (var j)) z) z)] ->
    (forall wx wz, fval wx wz p = k (wx i) (wx j) (wz (i, j))) -> exists p, In p (lift_polys n clauses) /\ forall wx wz, fval wx wz p = k (wx i) (wx j) (wz (i, j))).
  { intros p k' Hp E. exists p. split; [apply Sub, Hp|exact E]. }
  assert (Go : forall wx wz, Forall2 (fun p k => fval wx wz p = k (wx i) (wx j) (wz (i, j)))
    [neg z; neg (sub (var i) z); neg (sub (var j) z); neg (add (sub (sub z (var i)) (var j)) (constant 1)); neg (sub (sub (add (var i) (var j)) z) z); neg (add (add (sub (sub (constant 1) (var i)) (var j)) z) z)]
    [(fun x y z => - z); (fun x y z => z - x); (fun x y z => z - y); (fun x y z => x + y - 1 - z); (fun x y z => - (x - 2 * z + y)); (fun x y z => - (1 - x - y + 2 * z))]).
  { intros wx wz. repeat constructor; repeat (rewrite ?fval_neg, ?fval_add, ?fval_sub, ?Z0, ?V, ?K); lia. }
  apply (In_nth _ _ (fun _ _ _ => 0)) in Hk as (q & Hq & <-). apply (Fin (nth q [neg z; neg (sub (var i) z); neg (sub (var j) z); neg (add (sub (sub z (var i)) (var j)) (constant 1)); neg (sub (sub (add (var i) (var j)) z) z); neg (add (add (sub (sub (constant 1) (var i)) (var j)) z) z)] (constant 0))).
  - apply nth_In. cbn [length] in *. exact Hq.
  - intros wx wz. specialize (Go wx wz). do 6 (destruct q as [|q]; [cbn [nth]; inversion_clear Go; repeat match goal with H : Forall2 _ (_ :: _) _ |- _ => inversion_clear H end; assumption|]). cbn in Hq. lia.
Qed.
