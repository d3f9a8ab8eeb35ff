(** The union-find with path compression: the components are the classes of the smallest
    equivalence containing the pairs. *)
From Coq Require Import List Arith Bool Lia.
From stdpp Require Import list list_numbers.
From Verif Require Import PbModel PbRefute MatchProofs.
Local Open Scope list_scope.
Local Open Scope nat_scope.

Section uf.
Context (n : nat).
Implicit Types p : list nat.
Inductive leads p : nat -> list nat -> nat -> Prop :=
  | leads_root x : nth x p x = x -> leads p x [x] x
  | leads_step x l r : nth x p x <> x -> leads p (nth x p x) l r -> leads p x (x :: l) r.
Definition wf p : Prop := length p = n /\ (forall x, x < n -> nth x p x < n) /\ exists d : nat -> nat, forall x, nth x p x <> x -> d (nth x p x) < d x.
Definition root p x r : Prop := exists l, leads p x l r.
Lemma root_here p x : nth x p x = x -> root p x x.
Proof. intros E. exists [x]. apply leads_root, E. Qed.
Lemma root_step p x r : nth x p x <> x -> root p (nth x p x) r -> root p x r.
Proof. intros D [l L]. exists (x :: l). apply leads_step; assumption. Qed.
Lemma root_ind_ p (P : nat -> nat -> Prop) : (forall x, nth x p x = x -> P x x) -> (forall x r, nth x p x <> x -> root p (nth x p x) r -> P (nth x p x) r -> P x r) -> forall x r, root p x r -> P x r.
Proof. intros A B x r [l L]. induction L as [x E | x l r D L IH]; [apply A, E | apply B; [exact D | exists l; exact L | exact IH]]. Qed.
Lemma root_ex p : wf p -> forall x, exists r, root p x r.
Proof.
  intros (_ & _ & d & H) x. remember (d x) as k eqn:Ek. revert x Ek. induction k as [k IH] using lt_wf_ind. intros x Ek. destruct (decide (nth x p x = x)) as [E | E]; [exists x; apply root_here, E |].
  destruct (IH (d (nth x p x))) with (x := nth x p x) as [r R]; [subst k; apply H, E | reflexivity |]. exists r. apply root_step; assumption.
Qed.
Lemma root_end p x r : root p x r -> nth r p r = r.
Proof. intros [l L]. induction L; auto. Qed.
Lemma root_fun p x r s : root p x r -> root p x s -> r = s.
Proof.
  intros R. revert s. revert x r R. apply (root_ind_ p (fun x r => forall s, root p x s -> r = s)).
  - intros x E s [l L]. inversion L; subst; congruence.
  - intros x r D _ IH s [l L]. inversion L; subst; [congruence |]. apply IH. eexists. eassumption.
Qed.
Lemma root_lt p x r : wf p -> x < n -> root p x r -> r < n.
Proof. intros (_ & B & _) Hx R. revert x r R Hx. apply (root_ind_ p (fun x r => x < n -> r < n)); auto. Qed.
Lemma leads_short p x l r : wf p -> x < n -> leads p x l r -> length l <= n.
Proof.
  intros (_ & B & d & H) Hx L. rewrite <- (seq_length n 0). apply nodup_length_le.
  - assert (K : (forall y, y ∈ l -> d y <= d x) /\ NoDup l); [| apply K]. clear Hx. induction L as [x E | x l r D L IH].
    + split; [intros y I; apply elem_of_list_singleton in I as ->; lia | apply NoDup_singleton].
    + destruct IH as [I1 I2]. pose proof (H x D). split.
      * intros y I. apply elem_of_cons in I as [-> | I]; [lia | apply I1 in I; lia].
      * apply NoDup_cons. split; [intros I; apply I1 in I; lia | exact I2].
  - induction L as [x E | x l r D L IH]; intros y I.
    + apply elem_of_list_singleton in I as ->. apply elem_of_seq. lia.
    + apply elem_of_cons in I as [-> | I]; [apply elem_of_seq; lia | apply IH; auto].
Qed.
Lemma nth_insert_eq p x v : x < length p -> nth x (<[x := v]> p) x = v.
Proof. intros H. apply nth_lookup_Some. apply list_lookup_insert, H. Qed.
Lemma nth_insert_ne p x v y : y <> x -> nth y (<[x := v]> p) y = nth y p y.
Proof. intros H. rewrite !nth_lookup, list_lookup_insert_ne by congruence. reflexivity. Qed.
Lemma redirect p x r : wf p -> x < n -> r < n -> x <> r -> (exists d : nat -> nat, d r < d x /\ forall y, y <> x -> nth y p y <> y -> d (nth y p y) < d y) -> wf (<[x := r]> p).
Proof.
  intros (L & B & _) Hx Hr D (d & D1 & D2). assert (Lx : x < length p) by lia. split; [rewrite insert_length; exact L |]. split.
  - intros y Hy. destruct (decide (y = x)) as [-> | E]; [rewrite nth_insert_eq by exact Lx; exact Hr | rewrite nth_insert_ne by exact E; apply B, Hy].
  - exists d. intros y. destruct (decide (y = x)) as [-> | E]; [rewrite nth_insert_eq by exact Lx; intros _; exact D1 | rewrite nth_insert_ne by exact E; apply D2, E].
Qed.
Lemma root_down p d x r : (forall y, nth y p y <> y -> d (nth y p y) < d y) -> root p x r -> x = r \/ d r < d x.
Proof. intros H R. revert x r R. apply (root_ind_ p (fun x r => x = r \/ d r < d x)); [auto |]. intros x r D _ [<- | K]; right; [apply H, D | pose proof (H x D); lia]. Qed.
Lemma compress p x r : wf p -> x < n -> x <> r -> root p x r -> wf (<[x := r]> p) /\ forall y s, root (<[x := r]> p) y s <-> root p y s.
Proof.
  intros W Hx D R. pose proof (root_lt p x r W Hx R) as Hr. pose proof (root_end p x r R) as Er. pose proof W as W0. destruct W0 as (L & B & d & H).
  assert (W' : wf (<[x := r]> p)). { apply redirect; auto. exists d. split; [destruct (root_down p d x r H R) as [K | K]; [congruence | exact K] | intros y _; apply H]. }
  split; [exact W' |].
  assert (F : forall y s, root p y s -> root (<[x := r]> p) y s).
  { apply (root_ind_ p (fun y s => root (<[x := r]> p) y s)).
    - intros y E. apply root_here. destruct (decide (y = x)) as [-> | E']; [| rewrite nth_insert_ne by exact E'; exact E]. exfalso. apply D. apply (root_fun p x); [apply root_here, E | exact R].
    - intros y s E Ry IH. destruct (decide (y = x)) as [-> | E'].
      + assert (s = r) by (apply (root_fun p x); [apply root_step; assumption | exact R]). subst s. apply root_step; rewrite nth_insert_eq by lia; [congruence |]. apply root_here. rewrite nth_insert_ne by congruence. exact Er.
      + apply root_step; rewrite nth_insert_ne by exact E'; assumption. }
  intros y s. split; [| apply F]. intros Ry. destruct (root_ex p W y) as [s' Ry']. assert (s' = s) by (apply (root_fun (<[x := r]> p) y); [apply F, Ry' | exact Ry]). subst s'. exact Ry'.
Qed.
Lemma find_steps fuel : forall p x l r, wf p -> x < n -> leads p x l r -> length l <= fuel -> exists p', uf_find fuel p x = (r, p') /\ wf p' /\ forall y s, root p' y s <-> root p y s.
Proof.
  induction fuel as [| fuel IH]; intros p x l r W Hx L F; [inversion L; subst; cbn [length] in F; lia |]. cbn [uf_find]. inversion L as [x' E | x' l' r' D L' E1 E2]; subst.
  - rewrite E, Nat.eqb_refl. exists p. split; [reflexivity |]. split; [exact W | reflexivity].
  - destruct (Nat.eqb_spec (nth x p x) x) as [E | _]; [contradiction |]. cbn [length] in F. destruct (IH p (nth x p x) l' r W) as (p1 & E1 & W1 & R1); [apply (proj1 (proj2 W)), Hx | exact L' | lia |]. rewrite E1.
    assert (Rx : root p x r) by (exists (x :: l'); exact L). assert (Dx : x <> r). { intros ->. pose proof (root_end p r r Rx). contradiction. }
    destruct (compress p1 x r W1 Hx Dx) as [W2 R2]; [apply R1, Rx |]. exists (<[x := r]> p1). split; [reflexivity |]. split; [exact W2 |]. intros y s. rewrite R2. apply R1.
Qed.
Lemma find_ok p x : wf p -> x < n -> exists r p', uf_find n p x = (r, p') /\ root p x r /\ wf p' /\ forall y s, root p' y s <-> root p y s.
Proof.
  intros W Hx. destruct (root_ex p W x) as [r [l L]]. destruct (find_steps n p x l r W Hx L (leads_short p x l r W Hx L)) as (p' & E & W' & R'). exists r, p'. split; [exact E |]. split; [exists l; exact L |]. auto.
Qed.
Lemma link p ra rb : wf p -> ra < n -> rb < n -> ra <> rb -> nth ra p ra = ra -> nth rb p rb = rb -> wf (<[ra := rb]> p) /\ forall y s, root p y s -> root (<[ra := rb]> p) y (if Nat.eqb s ra then rb else s).
Proof.
  intros W Ha Hb D Ea Eb. pose proof W as W0. destruct W0 as (L & B & d & H). split.
  - assert (Fr : forall y s, y < n -> root p y s -> fst (uf_find n p y) = s). { intros y s Hy R. destruct (find_ok p y W Hy) as (r & p' & E & R' & _). rewrite E. apply (root_fun p y); assumption. }
    apply redirect; auto. exists (fun y => if Nat.eqb (fst (uf_find n p y)) ra then d y + d rb + 1 else d y). split.
    + rewrite (Fr ra ra Ha) by (apply root_here, Ea). rewrite (Fr rb rb Hb) by (apply root_here, Eb). rewrite Nat.eqb_refl. destruct (Nat.eqb_spec rb ra) as [K | _]; [congruence |]. lia.
    + intros y Dy Ny. assert (Hy : y < n). { destruct (Nat.lt_ge_cases y n) as [K | K]; [exact K |]. exfalso. apply Ny. apply nth_overflow. lia. }
      destruct (root_ex p W (nth y p y)) as [r R]. rewrite (Fr (nth y p y) r (B y Hy) R). rewrite (Fr y r Hy) by (apply root_step; assumption). pose proof (H y Ny). destruct (r =? ra); lia.
  - apply (root_ind_ p (fun y s => root (<[ra := rb]> p) y (if Nat.eqb s ra then rb else s))).
    + intros y E. destruct (Nat.eqb_spec y ra) as [-> | D'].
      * apply root_step; rewrite nth_insert_eq by lia; [congruence |]. apply root_here. rewrite nth_insert_ne by congruence. exact Eb.
      * apply root_here. rewrite nth_insert_ne by exact D'. exact E.
    + intros y s E Ry IH. apply root_step; rewrite nth_insert_ne by (intros ->; contradiction); assumption.
Qed.
Definition same p x y : Prop := exists r, root p x r /\ root p y r.
Lemma same_trans p x y z : same p x y -> same p y z -> same p x z.
Proof. intros (r & A & B) (s & C & E). rewrite (root_fun p y r s B C) in A. exists s. auto. Qed.
Lemma same_sym p x y : same p x y -> same p y x.
Proof. intros (r & A & B). exists r. auto. Qed.
Lemma union_ok p a b : wf p -> a < n -> b < n -> wf (uf_union n p (a, b)) /\ same (uf_union n p (a, b)) a b /\ (forall x y, same p x y -> same (uf_union n p (a, b)) x y) /\
  (forall x y, same (uf_union n p (a, b)) x y -> same p x y \/ (same p x a /\ same p y b) \/ (same p x b /\ same p y a)).
Proof.
  intros W Ha Hb. unfold uf_union. cbn [fst snd]. destruct (find_ok p a W Ha) as (ra & p1 & E1 & R1 & W1 & Q1). rewrite E1. destruct (find_ok p1 b W1 Hb) as (rb & p2 & E2 & R2 & W2 & Q2). rewrite E2.
  assert (Q : forall y s, root p2 y s <-> root p y s) by (intros y s; rewrite Q2; apply Q1). apply Q1 in R2.
  assert (Sm : forall x y, same p2 x y <-> same p x y). { intros x y. unfold same. split; intros (r & A & B); exists r; [rewrite <- !Q | rewrite !Q]; auto. }
  destruct (Nat.eqb_spec ra rb) as [<- | D].
  - split; [exact W2 |]. split; [apply Sm; exists ra; auto |]. split; [intros x y; apply Sm |]. intros x y K. left. apply Sm, K.
  - destruct (link p2 ra rb W2) as [W3 F]; [apply (root_lt p a); assumption | apply (root_lt p b); assumption | exact D | apply (root_end p2 a), Q, R1 | apply (root_end p2 b), Q, R2 |].
    split; [exact W3 |]. split; [| split].
    + exists rb. split.
      * pose proof (F a ra (proj2 (Q a ra) R1)) as K. rewrite Nat.eqb_refl in K. exact K.
      * pose proof (F b rb (proj2 (Q b rb) R2)) as K. destruct (Nat.eqb_spec rb ra) as [C | _]; [congruence | exact K].
    + intros x y (r & A & B). eexists. split; apply F, Q; eassumption.
    + intros x y (r & A & B). destruct (root_ex p W x) as [sx Sx]. destruct (root_ex p W y) as [sy Sy]. pose proof (root_fun _ _ _ _ (F x sx (proj2 (Q x sx) Sx)) A) as Ex. pose proof (root_fun _ _ _ _ (F y sy (proj2 (Q y sy) Sy)) B) as Ey.
      destruct (Nat.eqb_spec sx ra) as [Hx | Dx]; destruct (Nat.eqb_spec sy ra) as [Hy | Dy].
      * left. exists ra. rewrite Hx in Sx. rewrite Hy in Sy. auto.
      * right. left. rewrite Hx in Sx. rewrite Ey, <- Ex in Sy. split; [exists ra; auto | exists rb; auto].
      * right. right. rewrite Hy in Sy. rewrite Ex, <- Ey in Sx. split; [exists rb; auto | exists ra; auto].
      * left. exists r. rewrite Ex in Sx. rewrite Ey in Sy. auto.
Qed.
Lemma start_ok : wf (seq 0 n) /\ forall x y, same (seq 0 n) x y -> x = y.
Proof.
  assert (A : forall x, nth x (seq 0 n) x = x). { intros x. destruct (Nat.lt_ge_cases x n) as [K | K]; [rewrite seq_nth by exact K; reflexivity | apply nth_overflow; rewrite seq_length; exact K]. }
  split; [split; [apply seq_length |]; split; [intros x Hx; rewrite A; exact Hx | exists (fun _ => 0); intros x K; rewrite A in K; congruence] |].
  intros x y (r & R1 & R2). rewrite (root_fun _ _ _ _ R1 (root_here _ x (A x))) in R2. apply (root_fun _ _ _ _ R2), root_here, A.
Qed.
Lemma unions_ok (R : nat -> nat -> Prop) (R_refl : forall x, R x x) (R_sym : forall x y, R x y -> R y x) (R_trans : forall x y z, R x y -> R y z -> R x z) l : forall p, wf p -> (forall e, e ∈ l -> fst e < n /\ snd e < n) ->
  wf (fold_left (uf_union n) l p) /\ (forall e, e ∈ l -> same (fold_left (uf_union n) l p) (fst e) (snd e)) /\ (forall x y, same p x y -> same (fold_left (uf_union n) l p) x y) /\
  ((forall e, e ∈ l -> R (fst e) (snd e)) -> (forall x y, same p x y -> R x y) -> forall x y, same (fold_left (uf_union n) l p) x y -> R x y).
Proof.
  induction l as [| [a b] l IH]; intros p W Hl; cbn [fold_left].
  - split; [exact W |]. split; [intros e I; apply elem_of_nil in I as [] |]. auto.
  - destruct (Hl (a, b)) as [Ha Hb]; [left |]. cbn [fst snd] in Ha, Hb. destruct (union_ok p a b W Ha Hb) as (W1 & S1 & M1 & C1). destruct (IH (uf_union n p (a, b)) W1) as (W2 & S2 & M2 & C2); [intros e I; apply Hl; right; exact I |].
    split; [exact W2 |]. split; [| split].
    + intros e I. apply elem_of_cons in I as [-> | I]; [apply M2, S1 | apply S2, I].
    + intros x y K. apply M2, M1, K.
    + intros Hp Hs. apply C2; [intros e I; apply Hp; right; exact I |]. assert (Rab : R a b) by (apply (Hp (a, b)); left). intros x y K. destruct (C1 x y K) as [K1 | [[K1 K2] | [K1 K2]]]; [apply Hs, K1 | |].
      * apply (R_trans _ a); [apply Hs, K1 |]. apply (R_trans _ b); [exact Rab |]. apply R_sym, Hs, K2.
      * apply (R_trans _ b); [apply Hs, K1 |]. apply (R_trans _ a); [apply R_sym, Rab |]. apply R_sym, Hs, K2.
Qed.
Definition grouped (p0 : list nat) (seen : list nat) (g : list (nat * list nat)) : Prop :=
  NoDup (map fst g) /\ (forall r vs v, (r, vs) ∈ g -> v ∈ vs -> root p0 v r) /\ (forall v, v ∈ seen -> exists r vs, (r, vs) ∈ g /\ v ∈ vs).
Lemma add_member_keys r v g q : q ∈ map fst (add_member r v g) <-> q = r \/ q ∈ map fst g.
Proof.
  induction g as [| [q' vs] g IH]; cbn [add_member]; [cbn [map fst]; rewrite elem_of_cons; reflexivity |]. destruct (Nat.eqb_spec r q') as [<- | D]; cbn [map fst]; rewrite !elem_of_cons; [tauto |]. rewrite IH. tauto.
Qed.
Lemma add_member_in r v g q vs : (q, vs) ∈ add_member r v g -> (q, vs) ∈ g \/ (q = r /\ forall x, x ∈ vs -> x = v \/ exists ws, (r, ws) ∈ g /\ x ∈ ws).
Proof.
  induction g as [| [q' ws] g IH]; cbn [add_member].
  - intros I. apply elem_of_list_singleton in I. injection I as -> ->. right. split; [reflexivity |]. intros x I. apply elem_of_list_singleton in I. auto.
  - destruct (Nat.eqb_spec r q') as [<- | D]; intros I; apply elem_of_cons in I as [E | I].
    + injection E as -> ->. right. split; [reflexivity |]. intros x I. apply elem_of_app in I as [I | I]; [right; exists ws; split; [left | exact I] | apply elem_of_list_singleton in I; auto].
    + left. right. exact I.
    + injection E as -> ->. left. left.
    + destruct (IH I) as [K | [-> K]]; [left; right; exact K |]. right. split; [reflexivity |]. intros x Ix. destruct (K x Ix) as [-> | (us & Iu & Ju)]; [left; reflexivity | right; exists us; split; [right; exact Iu | exact Ju]].
Qed.
Lemma add_member_has r v g : exists vs, (r, vs) ∈ add_member r v g /\ v ∈ vs.
Proof.
  induction g as [| [q ws] g IH]; cbn [add_member]; [exists [v]; split; left |]. destruct (Nat.eqb_spec r q) as [<- | D]; [exists (ws ++ [v]); split; [left | apply elem_of_app; right; left] |]. destruct IH as (vs & I & J). exists vs. split; [right; exact I | exact J].
Qed.
Lemma add_member_keeps r v g q vs w : (q, vs) ∈ g -> w ∈ vs -> exists us, (q, us) ∈ add_member r v g /\ w ∈ us.
Proof.
  intros I J. induction g as [| [q' ws] g IH]; [apply elem_of_nil in I as [] |]. cbn [add_member]. apply elem_of_cons in I as [E | I].
  - injection E as -> ->. destruct (r =? q'); [exists (ws ++ [v]); split; [left | apply elem_of_app; left; exact J] | exists ws; split; [left | exact J]].
  - destruct (r =? q'); [exists vs; split; [right; exact I | exact J] |]. destruct (IH I) as (us & Iu & Ju). exists us. split; [right; exact Iu | exact Ju].
Qed.
Lemma grouped_ok p0 l : forall p seen g, wf p -> (forall y s, root p y s <-> root p0 y s) -> (forall v, v ∈ l -> v < n) -> grouped p0 seen g ->
  grouped p0 (seen ++ l) (snd (fold_left (fun st v => let '(p, g) := st in let '(r, p) := uf_find n p v in (p, add_member r v g)) l (p, g))).
Proof.
  induction l as [| v l IH]; intros p seen g W Q Hl G; cbn [fold_left]; [rewrite app_nil_r; exact G |].
  destruct (find_ok p v W) as (r & p' & E & R & W' & Q'); [apply Hl; left |]. rewrite E. replace (seen ++ v :: l) with ((seen ++ [v]) ++ l) by (rewrite <- app_assoc; reflexivity). apply IH; [exact W' | intros y s; rewrite Q'; apply Q | intros w I; apply Hl; right; exact I |].
  apply Q in R. destruct G as (G1 & G2 & G3). split; [| split].
  - clear -G1. induction g as [| [q ws] g IH]; cbn [add_member]; [apply NoDup_singleton |]. cbn [map fst] in G1. apply NoDup_cons in G1 as [N1 N2]. destruct (Nat.eqb_spec r q) as [<- | D]; cbn [map fst]; apply NoDup_cons; (split; [| auto]); [exact N1 |]. rewrite add_member_keys. intros [K | K]; [congruence | contradiction].
  - intros q vs w I J. apply add_member_in in I as [I | [-> K]]; [apply (G2 q vs); assumption |]. destruct (K w J) as [-> | (ws & Iw & Jw)]; [exact R | apply (G2 r ws); assumption].
  - intros w I. apply elem_of_app in I as [I | I].
    + destruct (G3 w I) as (q & vs & Iv & Jv). destruct (add_member_keeps r v g q vs w Iv Jv) as (us & Iu & Ju). exists q, us. auto.
    + apply elem_of_list_singleton in I as ->. destruct (add_member_has r v g) as (vs & Iv & Jv). exists r, vs. auto.
Qed.
End uf.

(** The components partition the variables, and two variables share one exactly when the pairs
    connect them. *)
Lemma components_partition n excl : concat (components n excl) ≡ₚ seq 0 n.
Proof.
  unfold components. assert (A : forall l p g0, concat (map snd (snd (fold_left (fun st v => let '(p, g) := st in let '(r, p) := uf_find n p v in (p, add_member r v g)) l (p, g0)))) ≡ₚ l ++ concat (map snd g0)).
  { clear. induction l as [| v l IH]; intros p g0; [reflexivity |]. cbn [fold_left]. destruct (uf_find n p v) as [r p']. rewrite IH, add_member_perm. symmetry. apply Permutation_middle. }
  rewrite A. cbn [map concat]. rewrite app_nil_r. reflexivity.
Qed.
Lemma components_ok n excl (R : nat -> nat -> Prop) : (forall e, e ∈ excl -> fst e < n /\ snd e < n) ->
  (forall e, e ∈ excl -> exists g, g ∈ components n excl /\ fst e ∈ g /\ snd e ∈ g) /\
  ((forall x, R x x) -> (forall x y, R x y -> R y x) -> (forall x y z, R x y -> R y z -> R x z) -> (forall e, e ∈ excl -> R (fst e) (snd e)) -> forall g x y, g ∈ components n excl -> x ∈ g -> y ∈ g -> R x y).
Proof.
  intros Hl. set (p0 := fold_left (uf_union n) excl (seq 0 n)). destruct (start_ok n) as [W0 S0].
  assert (W : wf n p0) by (apply (unions_ok n (fun _ _ => True)); auto).
  assert (G : grouped p0 ([] ++ seq 0 n) (snd (fold_left (fun st v => let '(p, g) := st in let '(r, p) := uf_find n p v in (p, add_member r v g)) (seq 0 n) (p0, [])))).
  { apply grouped_ok; [exact W | reflexivity | intros v I; apply elem_of_seq in I; lia |]. split; [apply NoDup_nil_2 |]. split; [intros r vs v I; apply elem_of_nil in I as [] | intros v I; apply elem_of_nil in I as []]. }
  cbn [app] in G. unfold components. fold p0. set (gs := snd (fold_left _ (seq 0 n) (p0, []))) in *. destruct G as (G1 & G2 & G3). split.
  - intros [a b] I. destruct (Hl (a, b) I) as [Ha Hb]. cbn [fst snd] in *. destruct (unions_ok n (fun _ _ => True)) with (l := excl) (p := seq 0 n) as (_ & S1 & _); auto. destruct (S1 (a, b) I) as (r & Ra & Rb). cbn [fst snd] in Ra, Rb. fold p0 in Ra, Rb.
    destruct (G3 a) as (ra & va & Ia & Ja); [apply elem_of_seq; lia |]. destruct (G3 b) as (rb & vb & Ib & Jb); [apply elem_of_seq; lia |].
    assert (ra = r) by (apply (root_fun p0 a); [apply (G2 ra va); assumption | exact Ra]). assert (rb = r) by (apply (root_fun p0 b); [apply (G2 rb vb); assumption | exact Rb]). subst ra rb.
    assert (va = vb). { clear -G1 Ia Ib. revert Ia Ib. generalize gs G1. clear. intros gs G1 Ia Ib. apply elem_of_list_lookup in Ia as [i Ei]. apply elem_of_list_lookup in Ib as [j Ej].
      assert (i = j) by (apply (NoDup_lookup (map fst gs) i j r G1); rewrite list_lookup_fmap; [rewrite Ei | rewrite Ej]; reflexivity). subst j. congruence. }
    subst vb. exists va. split; [apply elem_of_list_fmap; exists (r, va); auto | auto].
  - intros Rr Rs Rt Re g x y I Jx Jy. apply elem_of_list_fmap in I as ([r vs] & -> & I). cbn [snd] in Jx, Jy. destruct (unions_ok n R Rr Rs Rt excl (seq 0 n) W0 Hl) as (_ & _ & _ & C). apply C; [exact Re | intros u v K; rewrite (S0 u v K); apply Rr |]. fold p0. exists r. split; apply (G2 r vs); assumption.
Qed.
