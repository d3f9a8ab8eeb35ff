(** C42: [ring] decides polynomial identities. *)
From Coq Require Import ZArith String List Lia.
From stdpp Require Import gmap strings list.
From Verif Require Import SynModel SynSem LinMap LinExprModel LinExprProofs LiaProps OmegaModel OmegaProofs OmegaProps RingModel RingProofs.
Local Open Scope Z_scope.
Local Open Scope string_scope.
Local Open Scope list_scope.

(** The value of a polynomial, read off the data. *)
Definition mono_value (m : mono) (v : Z -> Z) : Z := fold_right (fun p acc => v (fst p) ^ snd p * acc) 1 (map_to_list m).
Definition poly_value (p : poly) (v : Z -> Z) : Z := fold_right (fun q acc => snd q * mono_value (fst q) v + acc) 0 (map_to_list p).
(** Polynomials obtained through the public constructors and operations. *)
Inductive built : poly -> Prop :=
  | built_zero : built p_zero
  | built_const c : built (p_const c)
  | built_var i : built (p_var i)
  | built_add a b : built a -> built b -> built (p_add a b)
  | built_neg a : built a -> built (p_neg a)
  | built_sub a b : built a -> built b -> built (p_sub a b)
  | built_mul a b : built a -> built b -> built (p_mul a b).

Lemma mono_value_mval m v : mono_value m v = mval v m.
Proof.
  rewrite (mval_on ((map_to_list m).*1)).
  - unfold mono_value.
    assert (H : forall l, (forall k c, (k, c) ∈ l -> m !! k = Some c) ->
      fold_right (fun p acc => v (fst p) ^ snd p * acc) 1 l = lprod l.*1 (fun k => v k ^ zget m k)).
    { induction l as [|[k c] l IH]; intros Hl; [done|]. cbn. rewrite IH by (intros; apply Hl; by right).
      unfold get at 2. rewrite (Hl k c) by left. done. }
    apply H. intros k c. apply elem_of_map_to_list.
  - apply NoDup_fst_map_to_list.
  - intros k [c Hc]. apply elem_of_list_fmap. exists (k, c). split; [done|]. by apply elem_of_map_to_list.
Qed.
Lemma poly_value_pval p v : poly_value p v = pval v p.
Proof.
  unfold pval. rewrite (msum_to_list _ _ _ _ _ _ Zth). unfold poly_value. induction (map_to_list p) as [|q l IH]; cbn; [done|].
  rewrite IH, mono_value_mval. done.
Qed.
Lemma built_ok p : built p -> poly_ok p.
Proof.
  induction 1.
  - intros m c. unfold p_zero. by rewrite lookup_empty.
  - apply const_ok.
  - apply var_ok.
  - by apply add_ok.
  - by apply neg_ok.
  - by apply sub_ok.
  - by apply mul_ok.
Qed.

(** ** C42 *)
(** The operations compute the values they denote. *)
Theorem C42_operations v a b c i : built a -> built b ->
  poly_value (p_const c) v = c /\ poly_value (p_var i) v = v i /\
  poly_value (p_add a b) v = poly_value a v + poly_value b v /\ poly_value (p_neg a) v = - poly_value a v /\
  poly_value (p_sub a b) v = poly_value a v - poly_value b v /\ poly_value (p_mul a b) v = poly_value a v * poly_value b v.
Proof.
  intros Ha Hb. rewrite !poly_value_pval. split; [apply pval_const|]. split; [apply pval_var|]. split; [apply pval_add|].
  split; [|split; [apply pval_sub|apply pval_mul; by apply built_ok]].
  pose proof (pval_sub v p_zero a) as H. unfold p_sub in H. rewrite pval_add in H.
  assert (Hz : pval v p_zero = 0) by apply (msum_empty _ _ _ _ _ _ Zth). lia.
Qed.
(** Canonical forms are equal exactly when the polynomials agree everywhere on the integers. *)
Theorem C42_canonical a b : built a -> built b -> (canonical_eq a b = true <-> forall v, poly_value a v = poly_value b v).
Proof.
  intros Ha Hb. unfold canonical_eq. rewrite bool_decide_eq_true. split; [by intros ->|].
  intros H. apply poly_eq; [by apply built_ok..|]. intros v. by rewrite <- !poly_value_pval.
Qed.

Lemma p_reify_ok x : forall st r st', p_reify x st = (r, st') -> in_ok st ->
  in_ok st' /\ ext st st' /\
  match r with
  | Some p => built p /\
      forall st'' rv rn w, ext st' st'' -> agrees st'' rv rn w -> xvars_above (-1000000) x -> zxval rv rn x = Some (pval w p)
  | None => forall rv rn, zxval rv rn x = None
  end.
Proof.
  induction x as [n|i|s|op a IHa b IHb|]; intros st r st'; cbn [p_reify].
  - intros [= <- <-] Hok. split; [done|]. split; [apply ext_refl|]. split; [constructor|]. intros. by rewrite pval_const.
  - intros [= <- <-] Hok. split; [done|]. split; [apply ext_refl|]. split; [constructor|].
    intros * _ [_ Hw] Hv. rewrite pval_var, Hw; done.
  - destruct (intern st s) as [st1 i] eqn:E. intros [= <- <-] Hok. pose proof (intern_ok _ _ _ _ E Hok) as (H1 & H2 & H3).
    split; [done|]. split; [done|]. split; [constructor|]. intros * He [Hw _] _.
    rewrite pval_var. cbn. f_equal. symmetry. apply Hw. eapply ext_lookup; done.
  - destruct ((op =? "add") || (op =? "sub") || (op =? "mul")) eqn:Eop.
    2: { intros [= <- <-] Hok. split; [done|]. split; [apply ext_refl|]. intros rv rn. cbn.
         destruct (zxval rv rn a), (zxval rv rn b); try done.
         destruct (op =? "add"); [done|]. destruct (op =? "sub"); [done|]. destruct (op =? "mul"); done. }
    destruct (p_reify a st) as [ra sa] eqn:Ea. intros H Hok. apply IHa in Ea as (A1 & A2 & A3); [|done].
    destruct ra as [la|].
    2: { injection H as <- <-. split; [done|]. split; [done|]. intros rv rn. cbn. by rewrite A3. }
    destruct (p_reify b sa) as [rb sb] eqn:Eb. apply IHb in Eb as (B1 & B2 & B3); [|done].
    destruct rb as [lb|].
    2: { injection H as <- <-. split; [done|]. split; [by eapply ext_trans|]. intros rv rn. cbn. rewrite B3.
         by destruct (zxval rv rn a). }
    injection H as <- <-. split; [done|]. split; [by eapply ext_trans|].
    destruct A3 as [Wa Va]. destruct B3 as [Wb Vb]. split.
    { destruct (op =? "add"); [by constructor|]. destruct (op =? "sub"); by constructor. }
    intros * H1 H2 [H3 H4]. cbn. rewrite (Va st'' rv rn w), (Vb st'' rv rn w); try done; [|exact (ext_trans _ _ _ B2 H1)].
    destruct (op =? "add"); [|destruct (op =? "sub"); [|destruct (op =? "mul"); [|done]]].
    + by rewrite pval_add.
    + by rewrite pval_sub.
    + rewrite pval_mul by (by apply built_ok). done.
  - intros [= <- <-] Hok. split; [done|]. split; [apply ext_refl|]. done.
Qed.

Definition SEQ (ty a b : term) : term := SAPP (SAPP (SAPP (SNAME "Eq") ty) a) b.
(** A goal [Eq T a b] is accepted exactly when [T] is [Int] or [Nat] and both sides are ring
    expressions with the same integer value under every interpretation of variables and names. *)
Theorem C42_decides ty a b : vars_above (-1000000) a -> vars_above (-1000000) b ->
  (ring_accepts (SEQ (SNAME ty) a b) = true <->
   (ty = "Int" \/ ty = "Nat") /\ forall rv rn, exists x, zval rv rn a = Some x /\ zval rv rn b = Some x).
Proof.
  intros Ha Hb. unfold ring_accepts, SEQ. cbn [extract_eq SAPP SNAME SBIN String.eqb Ascii.eqb Bool.eqb andb].
  cbn -[p_reify read canonical_eq val is_ring_type].
  assert (Et : is_ring_type (SNAME ty) = true <-> ty = "Int" \/ ty = "Nat").
  { cbn. rewrite orb_true_iff, !String.eqb_eq. done. }
  change (TApp (TGlobal "SName") (TText ty)) with (SNAME ty).
  destruct (is_ring_type (SNAME ty)) eqn:Eq; [|split; [done|intros [Ht _]; apply Et in Ht; done]].
  assert (Ht : ty = "Int" \/ ty = "Nat") by (by apply Et). clear Et Eq.
  destruct (p_reify (read a) in_new) as [ra sa] eqn:Ea. apply p_reify_ok in Ea as (A1 & A2 & A3); [|apply in_new_ok].
  destruct ra as [pa|].
  2: { split; [done|]. intros [_ H]. destruct (H (fun _ => 0) (fun _ => 0)) as (x & Hx & _). rewrite val_read, A3 in Hx. done. }
  destruct (p_reify (read b) sa) as [rb sb] eqn:Eb. apply p_reify_ok in Eb as (B1 & B2 & B3); [|done].
  destruct rb as [pb|].
  2: { split; [done|]. intros [_ H]. destruct (H (fun _ => 0) (fun _ => 0)) as (x & _ & Hx). rewrite val_read, B3 in Hx. done. }
  destruct A3 as [Wa Va], B3 as [Wb Vb]. rewrite C42_canonical by done.
  assert (V : forall rv rn w, agrees sb rv rn w -> zval rv rn a = Some (pval w pa) /\ zval rv rn b = Some (pval w pb)).
  { intros * Hw. rewrite !val_read. split; [apply (Va sb)|apply (Vb sb)]; try done; try (by apply xvars_read). apply ext_refl. }
  split.
  - intros H. split; [done|]. intros rv rn. destruct (agrees_exists sb rv rn B1) as (w & Hw). destruct (V _ _ _ Hw) as [-> ->].
    exists (pval w pa). specialize (H w). rewrite !poly_value_pval in H. by rewrite H.
  - intros [_ H] v. set (rn := fun s => match in_map sb !! s with Some i => v i | None => 0 end).
    assert (Hag : agrees sb v rn v). { split; [|done]. intros s i Hs. unfold rn. by rewrite Hs. }
    destruct (H v rn) as (x & H1 & H2). destruct (V _ _ _ Hag) as [E1 E2]. rewrite E1 in H1. rewrite E2 in H2.
    injection H1 as <-. injection H2 as H2. rewrite !poly_value_pval. by rewrite H2.
Qed.
Lemma eq_inv t ty a b : extract_eq t = Some (ty, a, b) -> t = SEQ ty a b.
Proof.
  unfold extract_eq. destruct t as [f b'| | | |]; try done. destruct f as [f1 f2| | | |]; try done.
  destruct f1 as [|c| | |]; try done. destruct f2 as [g1 a'| | | |]; try done. destruct g1 as [g2 g3| | | |]; try done.
  destruct g2 as [|c2| | |]; try done. destruct g3 as [h1 ty'| | | |]; try done. destruct h1 as [h2 h3| | | |]; try done.
  destruct h2 as [|c3| | |]; try done. destruct h3 as [i1 i2| | | |]; try done. destruct i1 as [|sn| | |]; try done.
  destruct i2 as [| | |s|]; try done. destruct (_ && _) eqn:E; [|done]. intros [= -> -> ->].
  rewrite !andb_true_iff, !String.eqb_eq in E. by destruct E as ((((-> & ->) & ->) & ->) & ->).
Qed.
(** Anything but an equation between ring expressions is rejected. *)
Theorem C42_rejects goal : ring_accepts goal = true -> exists ty a b, goal = SEQ (SNAME ty) a b /\ (ty = "Int" \/ ty = "Nat").
Proof.
  unfold ring_accepts. destruct (extract_eq goal) as [[[ty a] b]|] eqn:E; [|done].
  destruct (is_ring_type ty) eqn:Et; [|done]. intros _. unfold is_ring_type in Et.
  destruct ty as [[|c| | |] [| | |s|]| | | |]; try done. cbn in Et. destruct (c =? "SName") eqn:Ec; [|done].
  apply String.eqb_eq in Ec. subst c. apply orb_true_iff in Et.
  exists s, a, b. split; [|destruct Et as [H|H]; apply String.eqb_eq in H; tauto].
  by apply eq_inv in E.
Qed.

(** ** Examples *)
Definition rx := SVAR 0.
Definition ry := SNAME "y".
Definition r_plus a b := SBIN "add" a b.
Definition r_times a b := SBIN "mul" a b.
(** [(x+y)^2 = x^2 + 2xy + y^2], and not without the middle term. *)
Example C42_decides_ex :
  ring_accepts (SEQ (SNAME "Int") (r_times (r_plus rx ry) (r_plus rx ry))
    (r_plus (r_times rx rx) (r_plus (r_times (SLIT 2) (r_times rx ry)) (r_times ry ry)))) = true /\
  ring_accepts (SEQ (SNAME "Int") (r_times (r_plus rx ry) (r_plus rx ry)) (r_plus (r_times rx rx) (r_times ry ry))) = false /\
  vars_above (-1000000) (r_times (r_plus rx ry) (r_plus rx ry)).
Proof. split; [by vm_compute|]. split; [by vm_compute|]. cbn. lia. Qed.
Example C42_types_ex : ring_accepts (SEQ (SNAME "Nat") rx rx) = true /\ ring_accepts (SEQ (SNAME "Real") rx rx) = false.
Proof. split; by vm_compute. Qed.
Example C42_rejects_ex : ring_accepts (SEQ (SNAME "Int") (SBIN "div" rx rx) (SBIN "div" rx rx)) = false.
Proof. by vm_compute. Qed.
(** [(x+1)(x-1)] and [x^2 - 1]. *)
Definition ring_a := p_mul (p_add (p_var 0) (p_const 1)) (p_sub (p_var 0) (p_const 1)).
Definition ring_b := p_sub (p_mul (p_var 0) (p_var 0)) (p_const 1).
Example C42_canonical_ex : built ring_a /\ built ring_b /\ canonical_eq ring_a ring_b = true /\ canonical_eq ring_a (p_neg ring_b) = false.
Proof. split; [repeat constructor|]. split; [repeat constructor|]. split; by vm_compute. Qed.
Example C42_operations_ex : poly_value ring_a (fun _ => 5) = 24 /\ poly_value (p_neg ring_b) (fun _ => 5) = -24.
Proof. split; by vm_compute. Qed.
(** A variable index in the interner's range is identified with a name: an equation that is not an
    identity is accepted. *)
Theorem C42_collision_refuted : exists goal rv rn a b, goal = SEQ (SNAME "Int") a b /\ ring_accepts goal = true /\
  exists x y, zval rv rn a = Some x /\ zval rv rn b = Some y /\ x <> y.
Proof.
  exists (SEQ (SNAME "Int") (SVAR (-1000000)) (SNAME "n")), (fun _ => 1), (fun _ => 0), (SVAR (-1000000)), (SNAME "n").
  split; [done|]. split; [by vm_compute|]. by exists 1, 0.
Qed.
