(** C87: the 8-byte value behaves like the value it stands for, and its boxes are freed exactly once. *)
From Coq Require Import ZArith List Bool Lia.
From stdpp Require Import gmap.
From Verif Require Import MachInt NanboxModel.
Open Scope Z_scope.

(** ** Bits *)
Lemma lor_add k p : 0 <= p < 2 ^ 48 -> Z.lor (k * 2 ^ 48) p = k * 2 ^ 48 + p.
Proof.
  intros H. symmetry. apply Z.add_nocarry_lor. apply Z.bits_inj'. intros i Hi. rewrite Z.land_spec, Z.bits_0. destruct (Z.ltb_spec i 48).
  - rewrite Z.mul_pow2_bits_low by lia. done.
  - destruct (Z.eq_dec p 0) as [->|N]; [rewrite Z.bits_0; apply andb_false_r|]. rewrite (Z.bits_above_log2 p i); [apply andb_false_r|lia|]. assert (Z.log2 p < 48) by (apply Z.log2_lt_pow2; lia). lia.
Qed.
Lemma mask_mod x : Z.land x PAYLOAD_MASK = x mod 2 ^ 48.
Proof. unfold PAYLOAD_MASK. rewrite <- Z.land_ones by lia. f_equal. Qed.
Lemma tagged_add t p : 0 <= t < 4 -> 0 <= p < 2 ^ 48 -> tagged t p = QNAN + t * 2 ^ 48 + p.
Proof.
  intros Ht Hp. unfold tagged, TAG_SHIFT. assert (E : Z.lor QNAN (Z.shiftl t 48) = (0xFFF8 + t) * 2 ^ 48) by (assert (C : t = 0 \/ t = 1 \/ t = 2 \/ t = 3) by lia; destruct C as [->|[->|[->| ->]]]; reflexivity). rewrite E, lor_add by lia. unfold QNAN. lia.
Qed.
Lemma tagged_spec t p : 0 <= t < 4 -> 0 <= p < 2 ^ 48 -> is_tagged (tagged t p) = true /\ tag_of (tagged t p) = t /\ payload (tagged t p) = p.
Proof.
  intros Ht Hp. rewrite tagged_add by done. split; [|split].
  - unfold is_tagged, QNAN, CANONICAL_NAN. apply andb_true_intro. split; [apply Z.leb_le; lia|]. apply negb_true_iff, Z.eqb_neq. lia.
  - unfold tag_of, TAG_SHIFT, TAG_MASK. rewrite Z.shiftr_div_pow2 by lia. replace (QNAN + t * 2 ^ 48 + p) with (p + (0xFFF8 + t) * 2 ^ 48) by (unfold QNAN; lia).
    rewrite Z.div_add by lia. rewrite Z.div_small by lia. assert (C : t = 0 \/ t = 1 \/ t = 2 \/ t = 3) by lia; destruct C as [->|[->|[->| ->]]]; reflexivity.
  - unfold payload. rewrite mask_mod. replace (QNAN + t * 2 ^ 48 + p) with (p + (0xFFF8 + t) * 2 ^ 48) by (unfold QNAN; lia). rewrite Z.mod_add by lia. apply Z.mod_small. lia.
Qed.
Lemma extend_spec z : - 2 ^ 47 <= z < 2 ^ 47 -> extend (Z.land (wrap64 z) PAYLOAD_MASK) = z.
Proof.
  intros H. rewrite mask_mod. unfold wrap64, two64. replace (2 ^ 64) with (2 ^ 48 * 2 ^ 16) by reflexivity. rewrite Z.rem_mul_r by lia. rewrite Z.mul_comm, Z.mod_add, Z.mod_mod by lia.
  unfold extend, wrap_i64, two64. rewrite Z.shiftl_mul_pow2, Z.shiftr_div_pow2 by lia.
  destruct (Z.ltb_spec z 0).
  - replace (z mod 2 ^ 48) with (z + 2 ^ 48) by (symmetry; rewrite <- (Z.mod_add z 1) by lia; rewrite Z.mul_1_l; apply Z.mod_small; lia). rewrite (Z.mod_small (_ * _)) by lia. destruct (Z.ltb_spec ((z + 2 ^ 48) * 2 ^ 16) (2 ^ 63)); [lia|].
    replace ((z + 2 ^ 48) * 2 ^ 16 - 2 ^ 64) with (z * 2 ^ 16) by lia. apply Z.div_mul. lia.
  - rewrite (Z.mod_small z) by lia. rewrite (Z.mod_small (_ * _)) by lia. destruct (Z.ltb_spec (z * 2 ^ 16) (2 ^ 63)); [|lia]. apply Z.div_mul. lia.
Qed.
Lemma float_untagged b : is_u64 b -> is_tagged (n_float b) = false.
Proof.
  unfold is_u64, two64, n_float. intros H. destruct (is_nan b) eqn:E; [done|]. unfold is_nan in E. apply Z.ltb_ge in E. unfold is_tagged, QNAN. apply andb_false_intro1, Z.leb_gt.
  destruct (Z.ltb_spec b (2 ^ 63)); [rewrite Z.mod_small in E by lia; lia|]. replace b with ((b - 2 ^ 63) + 1 * 2 ^ 63) in E by lia. rewrite Z.mod_add, Z.mod_small in E by lia. lia.
Qed.

(** What the operators mean on integers, stated apart from the inline path. *)
Definition meaning (k : bop) (a b : Z) : Z + bool :=
  match k with
  | Add => inl (a + b) | Sub => inl (a - b) | Mul => inl (a * b) | Lt => inr (bool_decide (a < b)) | Gt => inr (bool_decide (a > b))
  | Le => inr (bool_decide (a <= b)) | Ge => inr (bool_decide (a >= b)) | Eq => inr (bool_decide (a = b)) | Ne => inr (bool_decide (a <> b))
  end.
Lemma z_op_meaning k a b : z_op k a b = meaning k a b.
Proof.
  assert (B : forall (x : bool) (P : Prop) `{Decision P}, (x = true <-> P) -> x = bool_decide P) by (intros x P D E; destruct x; symmetry; [apply bool_decide_eq_true; tauto|apply bool_decide_eq_false; intros H; apply E in H; done]).
  destruct k; cbn [z_op meaning]; f_equal; apply B; rewrite ?negb_true_iff, ?Z.ltb_lt, ?Z.leb_le, ?Z.eqb_eq, ?Z.eqb_neq; lia.
Qed.

Section Props.
Context {O : Type}.
Notation rv := (rv O).
Notation memory := (gmap Z rv).
Context (alloc : memory -> option Z) (kern : bop -> rv -> rv -> option rv).
(** An allocator gives addresses of 48 bits that are not in use, or none. *)
Definition allocator : Prop := forall h a, alloc h = Some a -> h !! a = None /\ 0 <= a < 2 ^ 48.
Definition float_ok (v : rv) : Prop := match v with RFloat b => is_u64 b | _ => True end.
(** The kernel is exact on integers: it gives an Int when the result is one and does not fail otherwise. *)
Definition exact : Prop := forall k a b, is_i64 a -> is_i64 b ->
  match meaning k a b with inr c => kern k (RInt a) (RInt b) = Some (RBool c) | inl z => if in_i64 z then kern k (RInt a) (RInt b) = Some (RInt z) else kern k (RInt a) (RInt b) <> None end.
Definition kernel_ok : Prop := exact /\ forall k v w u, kern k v w = Some u -> float_ok u.

Inductive rep (h : memory) : Z -> rv -> Prop :=
  | rep_int z : - 2 ^ 47 <= z < 2 ^ 47 -> rep h (tagged TAG_INT (Z.land (wrap64 z) PAYLOAD_MASK)) (RInt z)
  | rep_float b : is_tagged b = false -> rep h b (RFloat b)
  | rep_bool b : rep h (n_bool b) (RBool b)
  | rep_nothing : rep h n_nothing RNothing
  | rep_heap a v : 0 <= a < 2 ^ 48 -> h !! a = Some v -> rep h (tagged TAG_HEAP a) v.
Definition addr (n : Z) : list Z := if is_heap n then [payload n] else [].
Definition addrs (regs : list Z) : list Z := flat_map addr regs.
Definition inv (h : memory) (regs : list Z) (vals : list rv) : Prop := Forall2 (rep h) regs vals /\ List.NoDup (addrs regs) /\ forall a, is_Some (h !! a) <-> In a (addrs regs).

Lemma mask_range x : 0 <= Z.land x PAYLOAD_MASK < 2 ^ 48.
Proof. rewrite mask_mod. apply Z.mod_pos_bound. lia. Qed.
Lemma bool_range (b : bool) : 0 <= (if b then 1 else 0) < 2 ^ 48.
Proof. destruct b; lia. Qed.
(** The word determines what is read. *)
Lemma rep_read h n v : rep h n v ->
  to_runtime h n = Done v /\ addr n = (if is_heap n then [payload n] else []) /\ (is_heap n = true -> h !! payload n = Some v) /\
  (forall z, as_inline_int n = Some z -> v = RInt z /\ - 2 ^ 47 <= z < 2 ^ 47) /\ as_int h n = Done (match v with RInt z => Some z | _ => None end) /\ (is_heap n = true -> n = tagged TAG_HEAP (payload n) /\ 0 <= payload n < 2 ^ 48).
Proof.
  unfold to_runtime, addr, is_heap, as_inline_int, as_int, TAG_INT, TAG_BOOL, TAG_NOTHING, TAG_HEAP. intros [z Hz|b Hb|b| |a w Ha Hw].
  - destruct (tagged_spec TAG_INT (Z.land (wrap64 z) PAYLOAD_MASK)) as (E1 & E2 & E3); [unfold TAG_INT; lia|apply mask_range|]. rewrite E1, E2, E3. cbn. rewrite extend_spec by done. split; [done|]. split; [done|]. split; [done|]. split; [intros z' [= <-]; done|]. done.
  - rewrite Hb. cbn. done.
  - unfold n_bool. destruct (tagged_spec TAG_BOOL (if b then 1 else 0)) as (E1 & E2 & E3); [unfold TAG_BOOL; lia|apply bool_range|]. rewrite E1, E2, E3. cbn. destruct b; done.
  - done.
  - destruct (tagged_spec TAG_HEAP a) as (E1 & E2 & E3); [unfold TAG_HEAP; lia|done|]. rewrite E1, E2, E3. cbn. unfold heap_ref. rewrite E3, Hw. cbn. split; [done|]. split; [done|]. split; [done|]. split; [done|]. split; [done|]. intros _. split; [reflexivity|done].
Qed.
Lemma rep_heap_iff a : 0 <= a < 2 ^ 48 -> is_heap (tagged TAG_HEAP a) = true /\ payload (tagged TAG_HEAP a) = a.
Proof. intros H. destruct (tagged_spec TAG_HEAP a) as (E1 & E2 & E3); [unfold TAG_HEAP; lia|done|]. unfold is_heap. rewrite E1, E2. done. Qed.
Lemma rep_other h h' n v : rep h n v -> (is_heap n = true -> h' !! payload n = h !! payload n) -> rep h' n v.
Proof.
  intros R E. pose proof R as R0. destruct R as [z Hz|b Hb|b| |a w Ha Hw]; try (constructor; done). destruct (rep_heap_iff a Ha) as [I P]. constructor; [done|]. rewrite <- Hw. rewrite P in E. now apply E.
Qed.
Lemma Forall2_rep h h' regs vals : Forall2 (rep h) regs vals -> (forall a, In a (addrs regs) -> h' !! a = h !! a) -> Forall2 (rep h') regs vals.
Proof.
  intros F. induction F as [|n v regs vals R F IH]; intros H; [constructor|]. constructor.
  - apply (rep_other h); [done|]. intros I. apply H. unfold addrs. cbn [flat_map]. apply in_or_app. left. unfold addr. rewrite I. now left.
  - apply IH. intros a Ha. apply H. unfold addrs. cbn [flat_map]. apply in_or_app. now right.
Qed.
(** A fresh value in hand. *)
Lemma heap_inv h regs vals v : allocator -> inv h regs vals -> match heap alloc h v with Done (n, h') => inv h' (n :: regs) (v :: vals) /\ is_heap n = true | Abort => True | _ => False end.
Proof.
  intros A (F & N & D). unfold heap. destruct (alloc h) as [a|] eqn:E; [|done]. destruct (A h a E) as [Ha Ra]. rewrite mask_mod, Z.mod_small by done. destruct (rep_heap_iff a Ra) as [I P].
  assert (NI : ~ In a (addrs regs)) by (intros C; apply D in C as [x Hx]; congruence). split; [|done]. split; [constructor; [constructor; [done|apply lookup_insert]|]|split].
  - apply (Forall2_rep h); [done|]. intros b Hb. apply lookup_insert_ne. congruence.
  - unfold addrs. cbn [flat_map]. unfold addr at 1. rewrite I, P. cbn. now constructor.
  - intros b. unfold addrs. cbn [flat_map]. unfold addr at 1. rewrite I, P. cbn. rewrite lookup_insert_is_Some. fold (addrs regs). rewrite (D b). split; [intros [->|[_ H]]; [now left|now right]|]. intros [->|H]; [now left|]. destruct (decide (a = b)); [now left|now right].
Qed.
Lemma scalar_inv h regs vals n v : inv h regs vals -> rep h n v -> is_heap n = false -> inv h (n :: regs) (v :: vals).
Proof. intros (F & N & D) R I. split; [now constructor|]. assert (E : addrs (n :: regs) = addrs regs) by (unfold addrs; cbn [flat_map]; unfold addr at 1; rewrite I; done). rewrite E. done. Qed.
Lemma from_runtime_inv h regs vals v : allocator -> inv h regs vals -> float_ok v -> match from_runtime alloc h v with Done (n, h') => inv h' (n :: regs) (norm v :: vals) | Abort => True | _ => False end.
Proof.
  intros A I Fl. destruct v as [z|b|b| |o]; cbn [from_runtime norm].
  - unfold n_int. destruct ((- 2 ^ 47 <=? z) && (z <=? 2 ^ 47 - 1)) eqn:E.
    + apply andb_true_iff in E as [E1 E2]. apply Z.leb_le in E1, E2. apply scalar_inv; [done|constructor; lia|]. unfold is_heap. destruct (tagged_spec TAG_INT (Z.land (wrap64 z) PAYLOAD_MASK)) as (-> & -> & _); [unfold TAG_INT; lia|apply mask_range|done].
    + pose proof (heap_inv h regs vals (RInt z) A I) as H. destruct (heap alloc h (RInt z)) as [[n h']| | |]; try done. apply H.
  - apply scalar_inv; [done| |]; pose proof (float_untagged b Fl) as U; [now constructor|]. unfold is_heap. rewrite U. done.
  - apply scalar_inv; [done|constructor|destruct b; done].
  - apply scalar_inv; [done|constructor|done].
  - pose proof (heap_inv h regs vals (ROther o) A I) as H. destruct (heap alloc h (ROther o)) as [[n h']| | |]; try done. apply H.
Qed.
Lemma drop_inv h n v regs vals : inv h (n :: regs) (v :: vals) -> exists h', drop_ h n = Done h' /\ inv h' regs vals /\ (if is_heap n then h' = delete (payload n) h else h' = h).
Proof.
  intros (F & N & D). apply Forall2_cons in F as [R F]. unfold drop_. destruct (is_heap n) eqn:I.
  - destruct (rep_read h n v R) as (_ & _ & L & _). rewrite (L I). eexists. split; [reflexivity|]. split; [|done]. unfold addrs in N, D. cbn [flat_map] in N, D. unfold addr at 1 in N. unfold addr at 1 in D. rewrite I in N, D. cbn in N, D. fold (addrs regs) in N, D. apply List.NoDup_cons_iff in N as [NI N].
    split; [|split; [done|]].
    + apply (Forall2_rep h); [done|]. intros a Ha. apply lookup_delete_ne. congruence.
    + intros a. rewrite lookup_delete_is_Some. rewrite (D a). split; [intros [NE [C|C]]; [congruence|done]|]. intros H. split; [congruence|now right].
  - eexists. split; [reflexivity|]. split; [|done]. assert (E : addrs (n :: regs) = addrs regs) by (unfold addrs; cbn [flat_map]; unfold addr at 1; rewrite I; done). rewrite E in N, D. done.
Qed.
Lemma addrs_perm l l' : Permutation l l' -> Permutation (addrs l) (addrs l').
Proof. unfold addrs. apply Permutation_flat_map. Qed.
Lemma inv_perm h l v l' v' : inv h l v -> Forall2 (rep h) l' v' -> Permutation l l' -> inv h l' v'.
Proof.
  intros (F & N & D) F' P. split; [done|]. apply addrs_perm in P. split; [now apply (Permutation_NoDup P)|]. intros a. rewrite (D a). split; apply Permutation_in; [done|now symmetry].
Qed.
Lemma insert_perm (l : list Z) d o n : l !! d = Some o -> Permutation (n :: l) (o :: <[d := n]> l).
Proof.
  revert d. induction l as [|x l IH]; intros d; [done|]. destruct d as [|d]; cbn; [intros [= ->]; apply perm_swap|]. intros E. rewrite perm_swap. rewrite (IH d E). apply perm_swap.
Qed.
Lemma set_inv h regs vals d n v o w : regs !! d = Some o -> vals !! d = Some w -> inv h (n :: regs) (v :: vals) -> inv h (o :: <[d := n]> regs) (w :: <[d := v]> vals).
Proof.
  intros E1 E2 I. apply (inv_perm h (n :: regs) (v :: vals)); [done| |now apply insert_perm]. destruct I as (F & _ & _). apply Forall2_cons in F as [R F]. constructor; [eapply Forall2_lookup_lr; eauto|]. now apply Forall2_insert.
Qed.
Lemma inv_lookup h regs vals d : inv h regs vals -> (regs !! d = None /\ vals !! d = None) \/ exists n v, regs !! d = Some n /\ vals !! d = Some v /\ rep h n v.
Proof.
  intros (F & _ & _). pose proof (Forall2_length _ _ _ F) as L. destruct (regs !! d) as [n|] eqn:E.
  - right. destruct (Forall2_lookup_l _ _ _ _ _ F E) as (v & Ev & R). eauto.
  - left. split; [done|]. apply lookup_ge_None in E. apply lookup_ge_None. lia.
Qed.
Lemma assign_inv h regs vals d n v o w : regs !! d = Some o -> vals !! d = Some w -> inv h (n :: regs) (v :: vals) -> exists h', assign h regs d n = Done (h', <[d := n]> regs) /\ inv h' (<[d := n]> regs) (<[d := v]> vals).
Proof.
  intros E1 E2 I. pose proof (set_inv _ _ _ _ _ _ _ _ E1 E2 I) as J. destruct (drop_inv _ _ _ _ _ J) as (h' & Ed & K & _). unfold assign. rewrite E1, Ed. cbn. eauto.
Qed.
Notation "r ≈ s" := (match r with Done (h', regs', o) => exists vals', s = Done (vals', o) /\ inv h' regs' vals' | Abort => True | Fault => False | Panic => s = Panic end) (at level 70).
(** One step. *)
Lemma step_ok h regs vals o : allocator -> kernel_ok -> inv h regs vals -> match o with Load _ v => float_ok v | _ => True end -> step alloc kern h regs o ≈ vstep kern vals o.
Proof.
  intros A (EX & KF) I Ho. destruct o as [d v|d s|s|s|d f|k d a b]; cbn [step vstep]; unfold reg, vreg.
  - destruct (inv_lookup h regs vals d I) as [[-> ->]|(n & w & E1 & E2 & R)]; [done|]. rewrite E1, E2. pose proof (from_runtime_inv h regs vals v A I Ho) as H. destruct (from_runtime alloc h v) as [[m h']| | |]; cbn [rbind]; try done.
    unfold set. cbn [fst snd]. destruct (assign_inv _ _ _ _ _ _ _ _ E1 E2 H) as (h2 & -> & J). cbn. eauto.
  - destruct (inv_lookup h regs vals s I) as [[-> ->]|(n & w & E1 & E2 & R)]; [done|]. rewrite E1, E2. destruct (inv_lookup h regs vals d I) as [[-> ->]|(n' & w' & E1' & E2' & R')]; [done|]. rewrite E1', E2'.
    unfold clone. destruct (rep_read h n w R) as (T & _ & L & _). destruct (is_heap n) eqn:Hn.
    + unfold heap_ref. rewrite (L eq_refl). cbn [rbind]. pose proof (heap_inv h regs vals w A I) as H. destruct (heap alloc h w) as [[m h']| | |]; cbn [rbind]; try done. destruct H as [H _]. unfold set. cbn [fst snd]. destruct (assign_inv _ _ _ _ _ _ _ _ E1' E2' H) as (h2 & -> & J). cbn. eauto.
    + cbn [rbind]. unfold set. cbn [fst snd]. destruct (assign_inv _ _ _ _ _ _ _ _ E1' E2' (scalar_inv _ _ _ _ _ I R Hn)) as (h2 & -> & J). cbn. eauto.
  - destruct (inv_lookup h regs vals s I) as [[-> ->]|(n & w & E1 & E2 & R)]; [done|]. rewrite E1, E2. unfold into_runtime. destruct (rep_read h n w R) as (T & _ & L & _). rewrite T. cbn [rbind fst snd].
    exists (<[s := RNothing]> vals). split; [done|]. pose proof (scalar_inv h regs vals n_nothing RNothing I (rep_nothing h) eq_refl) as I1. pose proof (set_inv _ _ _ _ _ _ _ _ E1 E2 I1) as J. destruct (drop_inv _ _ _ _ _ J) as (h' & Ed & K & P). destruct (is_heap n); subst h'; done.
  - destruct (inv_lookup h regs vals s I) as [[-> ->]|(n & w & E1 & E2 & R)]; [done|]. rewrite E1, E2. destruct (rep_read h n w R) as (T & _ & _). rewrite T. cbn [rbind]. eauto.
  - destruct (inv_lookup h regs vals d I) as [[-> ->]|(n & w & E1 & E2 & R)]; [done|]. rewrite E1, E2.
    assert (M : match (if is_heap n then Done (h, regs) else rbind (to_runtime h n) (fun v => rbind (heap alloc h v) (fun r => assign (snd r) regs d (fst r)))) with Done (h1, regs1) => inv h1 regs1 vals /\ exists m, regs1 !! d = Some m /\ is_heap m = true | Abort => True | _ => False end).
    { destruct (is_heap n) eqn:Hn; [split; [done|]; eauto|]. destruct (rep_read h n w R) as (T & _ & _). rewrite T. cbn [rbind]. pose proof (heap_inv h regs vals w A I) as H. destruct (heap alloc h w) as [[m h']| | |]; cbn [rbind fst snd]; try done. destruct H as [H Hm].
      destruct (assign_inv _ _ _ _ _ _ _ _ E1 E2 H) as (h2 & -> & J). rewrite (list_insert_id vals d w E2) in J. split; [done|]. exists m. split; [|done]. apply list_lookup_insert. now apply lookup_lt_Some in E1. }
    destruct (if is_heap n then Done (h, regs) else _) as [[h1 regs1]| | |]; cbn [rbind fst snd]; try done. destruct M as (J & m & Em & Hm). rewrite Em.
    destruct (inv_lookup h1 regs1 vals d J) as [[C _]|(m' & w' & E1' & E2' & R')]; [congruence|]. rewrite Em in E1'. injection E1' as <-. rewrite E2 in E2'. injection E2' as <-. destruct (rep_read h1 m w R') as (_ & _ & L & _ & _ & L2). specialize (L Hm). destruct (L2 Hm) as [Eq Rg]. unfold heap_ref. rewrite L. cbn [rbind].
    exists (<[d := f w]> vals). split; [done|]. destruct J as (F & N & D).
    assert (P : Permutation regs1 (m :: delete d regs1)) by (apply (delete_Permutation regs1 d m Em)).
    assert (NI : ~ In (payload m) (addrs (delete d regs1))) by (apply addrs_perm in P; apply (Permutation_NoDup P) in N; unfold addrs in N; cbn [flat_map] in N; unfold addr at 1 in N; rewrite Hm in N; cbn in N; now apply List.NoDup_cons_iff in N as [N _]).
    split; [|split; [done|]].
    + apply Forall2_same_length_lookup_2; [rewrite insert_length; now apply Forall2_length in F|]. intros i x y Ex Ey. destruct (decide (i = d)) as [->|Nd].
      * rewrite Em in Ex. injection Ex as <-. rewrite list_lookup_insert in Ey by (now apply lookup_lt_Some in E2). injection Ey as <-. rewrite Eq. rewrite (proj2 (rep_heap_iff (payload m) Rg)). constructor; [done|apply lookup_insert].
      * rewrite list_lookup_insert_ne in Ey by congruence. pose proof (Forall2_lookup_lr _ _ _ _ _ _ F Ex Ey) as Rx. apply (rep_other h1); [done|]. intros Hx. apply lookup_insert_ne. intros C. apply NI. unfold addrs. apply in_flat_map. exists x. split.
        -- apply elem_of_list_In. apply elem_of_list_lookup. destruct (decide (i < d)%nat) as [Lt|Ge]; [exists i; now rewrite lookup_delete_lt|]. exists (i - 1)%nat. rewrite lookup_delete_ge by lia. rewrite <- Ex. f_equal. lia.
        -- unfold addr. rewrite Hx. left. congruence.
    + intros x. rewrite lookup_insert_is_Some. rewrite (D x). split; [intros [<-|[_ H]]; [|done]|intros H; destruct (decide (payload m = x)); [now left|now right]].
      apply in_flat_map. exists m. split; [apply elem_of_list_In; eapply elem_of_list_lookup_2; exact Em|]. unfold addr. rewrite Hm. now left.
  - destruct (inv_lookup h regs vals a I) as [[-> ->]|(m & v & E1 & E2 & R1)]; [done|]. rewrite E1, E2. destruct (inv_lookup h regs vals b I) as [[-> ->]|(n & w & E3 & E4 & R2)]; [done|]. rewrite E3, E4. destruct (inv_lookup h regs vals d I) as [[-> ->]|(o & u & E5 & E6 & R3)]; [done|]. rewrite E5, E6.
    destruct (rep_read h m v R1) as (T1 & _ & _ & S1 & _). destruct (rep_read h n w R2) as (T2 & _ & _ & S2 & _).
    assert (M : match binary alloc kern h k m n with Done (Some x, h') => exists q, kern k v w = Some q /\ inv h' (x :: regs) (norm q :: vals) | Done (None, h') => kern k v w = None /\ h' = h | Abort => True | _ => False end).
    { unfold binary. assert (G : match rbind (to_runtime h m) (fun v => rbind (to_runtime h n) (fun w => match kern k v w with None => Done (None, h) | Some u => rbind (from_runtime alloc h u) (fun r => Done (Some (fst r), snd r)) end)) with Done (Some x, h') => exists q, kern k v w = Some q /\ inv h' (x :: regs) (norm q :: vals) | Done (None, h') => kern k v w = None /\ h' = h | Abort => True | _ => False end).
      { rewrite T1, T2. cbn [rbind]. destruct (kern k v w) as [q|] eqn:K; [|done]. pose proof (from_runtime_inv h regs vals q A I (KF _ _ _ _ K)) as H. destruct (from_runtime alloc h q) as [[x h']| | |]; cbn [rbind fst snd]; try done. eauto. }
      destruct (as_inline_int m) as [za|] eqn:Ia; [|exact G]. destruct (as_inline_int n) as [zb|] eqn:Ib; [|exact G]. clear G. destruct (S1 za eq_refl) as [-> Ra]. destruct (S2 zb eq_refl) as [-> Rb].
      pose proof (EX k za zb ltac:(unfold is_i64; lia) ltac:(unfold is_i64; lia)) as Q. unfold fast. rewrite <- z_op_meaning in Q. destruct (z_op k za zb) as [z|c].
      - unfold checked_i64. destruct (in_i64 z) eqn:Ez.
        + pose proof (from_runtime_inv h regs vals (RInt z) A I ltac:(exact Logic.I)) as H. cbn [from_runtime] in H. destruct (n_int alloc h z) as [[x h']| | |]; cbn [rbind fst snd]; try done. eauto.
        + destruct (kern k (RInt za) (RInt zb)) as [q|] eqn:K; [|done]. pose proof (from_runtime_inv h regs vals q A I (KF _ _ _ _ K)) as H. destruct (from_runtime alloc h q) as [[x h']| | |]; cbn [rbind fst snd]; try done. eauto.
      - cbn [rbind fst snd]. exists (RBool c). split; [done|]. cbn [norm]. apply scalar_inv; [done|constructor|destruct c; done]. }
    destruct (binary alloc kern h k m n) as [[[x|] h']| | |]; cbn [rbind fst snd]; try done.
    + destruct M as (q & -> & J). unfold set. cbn [fst snd]. destruct (assign_inv _ _ _ _ _ _ _ _ E5 E6 J) as (h2 & -> & K). cbn. eauto.
    + destruct M as (-> & ->). eauto.
Qed.
(** Any sequence of register operations shows what the same operations on plain values show; no address is read or freed
    twice or after it is freed, and the boxes allocated are always those of the registers. *)
Theorem C87_registers h regs vals ops : allocator -> kernel_ok -> inv h regs vals -> Forall (fun o => match o with Load _ v => float_ok v | _ => True end) ops ->
  match run alloc kern h regs ops with
  | Done (h', regs', seen) => exists vals', vrun kern vals ops = Done (vals', seen) /\ inv h' regs' vals'
  | Abort => True
  | Fault => False
  | Panic => vrun kern vals ops = Panic
  end.
Proof.
  intros A K I F. revert h regs vals I. induction F as [|o ops Ho F IH]; intros h regs vals I; cbn [run vrun]; [eauto|]. pose proof (step_ok h regs vals o A K I Ho) as S. destruct (step alloc kern h regs o) as [[[h1 regs1] sh]| | |]; cbn [rbind fst snd]; try done; [|now rewrite S].
  destruct S as (vals1 & -> & I1). cbn [rbind fst snd]. specialize (IH h1 regs1 vals1 I1). destruct (run alloc kern h1 regs1 ops) as [[[h2 regs2] seen]| | |]; cbn [rbind fst snd]; try done; [|now rewrite IH]. destruct IH as (vals2 & -> & I2). cbn. eauto.
Qed.
(** Dropping the registers frees everything. *)
Theorem C87_no_leak h regs vals : inv h regs vals -> drop_all h regs = Done ∅.
Proof.
  revert h vals. induction regs as [|n regs IH]; intros h vals I.
  - cbn. f_equal. apply map_empty. intros a. destruct I as (_ & _ & D). destruct (h !! a) eqn:E; [|done]. exfalso. apply (D a). rewrite E. eauto.
  - destruct vals as [|v vals]; [destruct I as (F & _ & _); inversion F|]. destruct (drop_inv h n v regs vals I) as (h' & E & J & _). cbn [drop_all]. rewrite E. cbn. eapply IH. exact J.
Qed.
Theorem C87_start k : inv ∅ (repeat n_nothing k) (repeat RNothing k).
Proof.
  induction k as [|k IH]; [split; [constructor|]; split; [constructor|]; intros a; rewrite lookup_empty; split; [intros [x H]; done|intros []]|]. cbn [repeat]. apply scalar_inv; [done|constructor|done].
Qed.
(** The accessors of a value built by from_runtime. *)
Theorem C87_accessors h v : allocator -> float_ok v -> match from_runtime alloc h v with
  | Done (n, h') => is_u64 n /\ to_runtime h' n = Done (norm v) /\ as_int h' n = Done (match v with RInt z => Some z | _ => None end) /\
      as_float n = (match norm v with RFloat b => Some b | _ => None end) /\ as_bool n = (match v with RBool b => Some b | _ => None end) /\ is_nothing n = (match v with RNothing => true | _ => false end) /\
      is_heap n = (match v with RInt z => negb ((- 2 ^ 47 <=? z) && (z <=? 2 ^ 47 - 1)) | ROther _ => true | _ => false end)
  | Abort => True | _ => False end.
Proof.
  intros A Fl.
  assert (HP : forall w, match heap alloc h w with Done (n, h') => is_u64 n /\ to_runtime h' n = Done w /\ as_int h' n = Done (match w with RInt z => Some z | _ => None end) /\ as_float n = None /\ as_bool n = None /\ is_nothing n = false /\ is_heap n = true | Abort => True | _ => False end).
  { intros w. unfold heap. destruct (alloc h) as [a|] eqn:E; [|done]. destruct (A h a E) as [Ha Ra]. rewrite mask_mod, Z.mod_small by done. assert (R : rep (<[a := w]> h) (tagged TAG_HEAP a) w) by (constructor; [done|apply lookup_insert]). destruct (rep_read _ _ _ R) as (T & _ & _ & _ & I & _).
    destruct (tagged_spec TAG_HEAP a) as (E1 & E2 & E3); [unfold TAG_HEAP; lia|done|]. split; [rewrite tagged_add by (unfold TAG_HEAP; lia); unfold is_u64, two64, QNAN, TAG_HEAP; lia|]. split; [done|]. split; [done|]. unfold as_float, as_bool, is_nothing, is_heap. rewrite E1, E2. done. }
  destruct v as [z|b|b| |o]; cbn [from_runtime norm].
  - unfold n_int. destruct ((- 2 ^ 47 <=? z) && (z <=? 2 ^ 47 - 1)) eqn:E; [|exact (HP (RInt z))]. apply andb_true_iff in E as [E1 E2]. apply Z.leb_le in E1, E2. assert (R : rep h (tagged TAG_INT (Z.land (wrap64 z) PAYLOAD_MASK)) (RInt z)) by (constructor; lia). destruct (rep_read _ _ _ R) as (T & _ & _ & _ & I & _).
    destruct (tagged_spec TAG_INT (Z.land (wrap64 z) PAYLOAD_MASK)) as (F1 & F2 & F3); [unfold TAG_INT; lia|apply mask_range|]. pose proof (mask_range (wrap64 z)) as MR. split; [rewrite tagged_add by (unfold TAG_INT; lia); unfold is_u64, two64, QNAN, TAG_INT; lia|]. split; [done|]. split; [done|]. unfold as_float, as_bool, is_nothing, is_heap. rewrite F1, F2. done.
  - pose proof (float_untagged b Fl) as U. split; [unfold n_float; destruct (is_nan b); [done|exact Fl]|]. unfold to_runtime, as_int, as_float, as_bool, is_nothing, is_heap. rewrite U. done.
  - destruct b; done.
  - done.
  - exact (HP (ROther o)).
Qed.
End Props.
(** A number that is not a NaN is kept bit for bit. *)
Theorem C87_float b : is_nan b = false -> n_float b = b.
Proof. unfold n_float. intros ->. done. Qed.
(** Changing a register in place moves it to a box, and then it no longer answers as a Bool or a Float. *)
Definition bump (h : gmap Z (rv nat)) : option Z := let a := fold_right Z.max 0 (map fst (map_to_list h)) + 16 in if a <? 2 ^ 48 then Some a else None.
Lemma bump_allocator : allocator bump.
Proof.
  intros h a. unfold bump. assert (P : forall l x, In x l -> x <= fold_right Z.max 0 l) by (induction l as [|y l IH]; intros x Hx; [destruct Hx|]; cbn; destruct Hx as [->|Hx]; [lia|specialize (IH x Hx); lia]). assert (Q : forall l, 0 <= fold_right Z.max 0 l) by (induction l; cbn; lia).
  set (l := map fst (map_to_list h)). destruct (Z.ltb_spec (fold_right Z.max 0 l + 16) (2 ^ 48)); [|done]. intros [= <-]. specialize (Q l). split; [|lia]. apply eq_None_not_Some. intros [v Hv]. apply elem_of_map_to_list in Hv. apply elem_of_list_In in Hv. specialize (P l _ (in_map fst _ _ Hv)). cbn in P. lia.
Qed.
Definition kern0 (k : bop) (v w : rv nat) : option (rv nat) :=
  match v, w with RInt a, RInt b => match z_op k a b with inr c => Some (RBool c) | inl z => Some (if in_i64 z then RInt z else ROther 0%nat) end | _, _ => None end.
Lemma kern0_ok : kernel_ok kern0.
Proof. split; [intros k a b _ _; rewrite <- z_op_meaning; cbn; destruct (z_op k a b) as [z|c]; [destruct (in_i64 z); done|done]|]. intros k v w u. unfold kern0. destruct v, w; try done. destruct (z_op k z z0) as [x|c]; [|intros [= <-]; done]. intros [= <-]. destruct (in_i64 x); done. Qed.
Theorem C87_change_refuted : exists v h regs, run bump kern0 ∅ [n_nothing] [Load 0 v; Change 0 (fun v => v)] = Done (h, regs, [Silent; Silent]) /\
  match regs with [n] => to_runtime h n = Done v /\ v = RBool true /\ as_bool n = None | _ => False end.
Proof. eexists (RBool true), _, _. split; [vm_compute; reflexivity|]. vm_compute. done. Qed.
(** An address beyond 48 bits is cut off (the check is a debug assertion) and the box is lost. *)
Theorem C87_address_refuted : exists (alloc : gmap Z (rv nat) -> option Z), (forall h a, alloc h = Some a -> h !! a = None /\ 0 <= a < 2 ^ 64) /\ run alloc kern0 ∅ [n_nothing] [Load 0 (ROther 7%nat); Read 0] = Fault.
Proof.
  exists (fun h => if decide (h = ∅) then Some (2 ^ 48) else None). split; [|vm_compute; done]. intros h a. destruct (decide (h = ∅)) as [->|]; [|done]. intros [= <-]. split; [apply lookup_empty|lia].
Qed.
Example C87_ex : match run bump kern0 ∅ [n_nothing; n_nothing] [Load 0 (RInt (2 ^ 47 - 1)); Load 1 (RInt (-5)); Binary Mul 1 0 1; Take 1; Copy 1 0; Binary Lt 0 0 1; Read 0; Load 0 (RInt (2 ^ 62)); Take 0] with
  | Done (h, regs, seen) => map_to_list h = [] /\ regs = [n_nothing; tagged TAG_INT (2 ^ 47 - 1)] /\ seen = [Silent; Silent; Silent; Value (RInt (-5 * (2 ^ 47 - 1))); Silent; Silent; Value (RBool false); Silent; Value (RInt (2 ^ 62))]
  | _ => False end.
Proof. vm_compute. done. Qed.
