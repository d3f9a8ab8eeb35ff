(** Lemmas about the interpreter, about bits, and about the two search
    families. *)

From Coq Require Import ZArith List Bool Lia.
From Verif Require Import SymModel.
Import ListNotations.
Open Scope Z_scope.

(** ** More fuel changes nothing *)

Section Mono.
Variable p : program.

Lemma eval_S (f : nat) (r : env) (e : expr) : eval p (S f) r e =
      match e with
      | ENum z => Some (VInt z)
      | EId s => r s
      | EBin o a b =>
          match o with
          | And =>
              match eval p f r a with
              | Some x => if truthy x then option_map (fun y => VBool (truthy y)) (eval p f r b)
                          else Some (VBool false)
              | None => None
              end
          | Or =>
              match eval p f r a with
              | Some x => if truthy x then Some (VBool true)
                          else option_map (fun y => VBool (truthy y)) (eval p f r b)
              | None => None
              end
          | _ =>
              match eval p f r a, eval p f r b with
              | Some x, Some y => binop o x y
              | _, _ => None
              end
          end
      | ENot a =>
          match eval p f r a with
          | Some (VInt z) => Some (VInt (Z.lnot z))
          | Some (VBool b) => Some (VBool (negb b))
          | _ => None
          end
      | ECall g args =>
          match evals p f r args with
          | Some vs => call p f g vs
          | None => None
          end
      | EOther => None
      end.
Proof. reflexivity. Qed.
Lemma evals_S (f : nat) (r : env) (es : list expr) : evals p (S f) r es =
      match es with
      | [] => Some []
      | e :: es =>
          match eval p f r e, evals p f r es with
          | Some v, Some vs => Some (v :: vs)
          | _, _ => None
          end
      end.
Proof. reflexivity. Qed.
Lemma call_S (f : nat) (g : symbol) (vs : list value) : call p (S f) g vs =
      match find (fun fn => Nat.eqb (f_name fn) g) p with
      | Some fn =>
          if Nat.eqb (length (f_params fn)) (length vs) then
            match exec p f (bind (f_params fn) vs) (f_body fn) with
            | Some (_, Some v) => Some v
            | _ => None
            end
          else None
      | None => None
      end.
Proof. reflexivity. Qed.
Lemma exec_S (f : nat) (r : env) (ss : list stmt) : exec p (S f) r ss =
      match ss with
      | [] => Some (r, None)
      | s :: ss =>
          match step p f r s with
          | Some (r', None) => exec p f r' ss
          | other => other
          end
      end.
Proof. reflexivity. Qed.
Lemma step_S (f : nat) (r : env) (s : stmt) : step p (S f) r s =
      match s with
      | SLet x e | SSet x e =>
          match eval p f r e with
          | Some v => Some (upd r x v, None)
          | None => None
          end
      | SIf c t e =>
          match eval p f r c with
          | Some (VBool true) => exec p f r t
          | Some (VBool false) =>
              match e with Some b => exec p f r b | None => Some (r, None) end
          | _ => None
          end
      | SWhile c b =>
          match eval p f r c with
          | Some (VBool true) =>
              match exec p f r b with
              | Some (r', None) => step p f r' (SWhile c b)
              | other => other
              end
          | Some (VBool false) => Some (r, None)
          | _ => None
          end
      | SReturn (Some e) =>
          match eval p f r e with
          | Some v => Some (r, Some v)
          | None => None
          end
      | SReturn None => Some (r, Some VNothing)
      | SOther => None
      end.
Proof. reflexivity. Qed.

Lemma mono_all f : forall f', (f <= f')%nat ->
  (forall r e v, eval p f r e = Some v -> eval p f' r e = Some v) /\
  (forall r es v, evals p f r es = Some v -> evals p f' r es = Some v) /\
  (forall g vs v, call p f g vs = Some v -> call p f' g vs = Some v) /\
  (forall r ss v, exec p f r ss = Some v -> exec p f' r ss = Some v) /\
  (forall r s v, step p f r s = Some v -> step p f' r s = Some v).
Proof.
  induction f as [|f IH]; intros f' Hle.
  { repeat split; intros; discriminate. }
  destruct f' as [|f']; [lia|].
  destruct (IH f' ltac:(lia)) as (IE & IEs & IC & IX & IS). clear IH Hle.
  repeat split.
  - intros r e v H.
    destruct e as [z|s|o a b|a|g args|]; rewrite eval_S in H |- *; try exact H; try discriminate.
    + destruct o;
        (destruct (eval p f r a) as [x|] eqn:Ea; [|discriminate]; rewrite (IE _ _ _ Ea));
        try (destruct (eval p f r b) as [y|] eqn:Eb; [|discriminate];
             rewrite (IE _ _ _ Eb); exact H).
      * destruct (truthy x); [|exact H].
        destruct (eval p f r b) as [y|] eqn:Eb; [|discriminate].
        rewrite (IE _ _ _ Eb). exact H.
      * destruct (truthy x); [exact H|].
        destruct (eval p f r b) as [y|] eqn:Eb; [|discriminate].
        rewrite (IE _ _ _ Eb). exact H.
    + destruct (eval p f r a) as [x|] eqn:Ea; [|discriminate].
      rewrite (IE _ _ _ Ea). exact H.
    + destruct (evals p f r args) as [x|] eqn:Ea; [|discriminate].
      rewrite (IEs _ _ _ Ea). exact (IC _ _ _ H).
  - intros r es v H. destruct es as [|e es]; rewrite evals_S in H |- *; [exact H|].
    destruct (eval p f r e) as [x|] eqn:Ea; [|discriminate].
    destruct (evals p f r es) as [y|] eqn:Eb; [|discriminate].
    rewrite (IE _ _ _ Ea), (IEs _ _ _ Eb). exact H.
  - intros g vs v H. rewrite call_S in H |- *.
    destruct (find _ p) as [fn|]; [|discriminate].
    destruct (Nat.eqb _ _); [|discriminate].
    destruct (exec p f _ _) as [[r' [w|]]|] eqn:Ex; try discriminate.
    rewrite (IX _ _ _ Ex). exact H.
  - intros r ss v H. destruct ss as [|s ss]; rewrite exec_S in H |- *; [exact H|].
    destruct (step p f r s) as [[r' [w|]]|] eqn:Es; [| |discriminate];
      rewrite (IS _ _ _ Es); [exact H|exact (IX _ _ _ H)].
  - intros r s v H.
    destruct s as [x e|x e|c t e|c b|[e|]|]; rewrite step_S in H |- *; try exact H; try discriminate.
    + destruct (eval p f r e) as [w|] eqn:Ea; [|discriminate].
      rewrite (IE _ _ _ Ea). exact H.
    + destruct (eval p f r e) as [w|] eqn:Ea; [|discriminate].
      rewrite (IE _ _ _ Ea). exact H.
    + destruct (eval p f r c) as [w|] eqn:Ea; [|discriminate].
      rewrite (IE _ _ _ Ea).
      destruct w as [|[]|]; try discriminate.
      * exact (IX _ _ _ H).
      * destruct e as [b|]; [exact (IX _ _ _ H)|exact H].
    + destruct (eval p f r c) as [w|] eqn:Ea; [|discriminate].
      rewrite (IE _ _ _ Ea).
      destruct w as [|[]|]; try discriminate; [|exact H].
      destruct (exec p f r b) as [[r' [w|]]|] eqn:Ex; [| |discriminate];
        rewrite (IX _ _ _ Ex); [exact H|exact (IS _ _ _ H)].
    + destruct (eval p f r e) as [w|] eqn:Ea; [|discriminate].
      rewrite (IE _ _ _ Ea). exact H.
Qed.

Definition ev (r : env) (e : expr) (v : value) := exists f, eval p f r e = Some v.
Definition evs (r : env) (e : list expr) (v : list value) := exists f, evals p f r e = Some v.
Definition cl (g : symbol) (vs : list value) (v : value) := exists f, call p f g vs = Some v.
Definition ex (r : env) (ss : list stmt) (o : env * option value) :=
  exists f, exec p f r ss = Some o.
Definition st (r : env) (s : stmt) (o : env * option value) := exists f, step p f r s = Some o.

Lemma up_eval f f' r e v : (f <= f')%nat -> eval p f r e = Some v -> eval p f' r e = Some v.
Proof. intros Hle. now apply mono_all. Qed.
Lemma up_evals f f' r e v : (f <= f')%nat -> evals p f r e = Some v -> evals p f' r e = Some v.
Proof. intros Hle. now apply mono_all. Qed.
Lemma up_call f f' g vs v : (f <= f')%nat -> call p f g vs = Some v -> call p f' g vs = Some v.
Proof. intros Hle. now apply mono_all. Qed.
Lemma up_exec f f' r e v : (f <= f')%nat -> exec p f r e = Some v -> exec p f' r e = Some v.
Proof. intros Hle. now apply mono_all. Qed.
Lemma up_step f f' r e v : (f <= f')%nat -> step p f r e = Some v -> step p f' r e = Some v.
Proof. intros Hle. now apply mono_all. Qed.

Lemma cl_det g vs v w : cl g vs v -> cl g vs w -> v = w.
Proof.
  intros [f Hf] [f' Hf'].
  apply (up_call f (f + f')) in Hf; [|lia]. apply (up_call f' (f + f')) in Hf'; [|lia].
  congruence.
Qed.

(** *** Rules *)

Lemma ev_num r z : ev r (ENum z) (VInt z).
Proof. exists 1%nat. reflexivity. Qed.
Lemma ev_id r s v : r s = Some v -> ev r (EId s) v.
Proof. exists 1%nat. exact H. Qed.
Lemma ev_bin r o a b x y z :
  ev r a x -> ev r b y -> binop o x y = Some z -> ev r (EBin o a b) z.
Proof.
  intros [f Hf] [f' Hf'] Hz. exists (S (f + f')). rewrite eval_S.
  rewrite (up_eval f (f + f') _ _ _ ltac:(lia) Hf), (up_eval f' (f + f') _ _ _ ltac:(lia) Hf').
  destruct o; try exact Hz; destruct x, y; discriminate.
Qed.
Lemma ev_not r a z : ev r a (VInt z) -> ev r (ENot a) (VInt (Z.lnot z)).
Proof. intros [f Hf]. exists (S f). rewrite eval_S. now rewrite Hf. Qed.
Lemma ev_call r g args vs v : evs r args vs -> cl g vs v -> ev r (ECall g args) v.
Proof.
  intros [f Hf] [f' Hf']. exists (S (f + f')). rewrite eval_S.
  rewrite (up_evals f (f + f') _ _ _ ltac:(lia) Hf).
  exact (up_call f' (f + f') _ _ _ ltac:(lia) Hf').
Qed.
Lemma evs_nil r : evs r [] [].
Proof. now exists 1%nat. Qed.
Lemma evs_cons r e es v vs : ev r e v -> evs r es vs -> evs r (e :: es) (v :: vs).
Proof.
  intros [f Hf] [f' Hf']. exists (S (f + f')). rewrite evals_S.
  now rewrite (up_eval f (f + f') _ _ _ ltac:(lia) Hf), (up_evals f' (f + f') _ _ _ ltac:(lia) Hf').
Qed.
Lemma cl_intro g vs v fn r' :
  find (fun fn => Nat.eqb (f_name fn) g) p = Some fn ->
  length (f_params fn) = length vs ->
  ex (bind (f_params fn) vs) (f_body fn) (r', Some v) -> cl g vs v.
Proof.
  intros Hfind Hlen [f Hf]. exists (S f). rewrite call_S. rewrite Hfind.
  rewrite (proj2 (Nat.eqb_eq _ _) Hlen). now rewrite Hf.
Qed.
Lemma ex_nil r : ex r [] (r, None).
Proof. now exists 1%nat. Qed.
Lemma ex_cons r s ss r' o : st r s (r', None) -> ex r' ss o -> ex r (s :: ss) o.
Proof.
  intros [f Hf] [f' Hf']. exists (S (f + f')). rewrite exec_S.
  rewrite (up_step f (f + f') _ _ _ ltac:(lia) Hf).
  exact (up_exec f' (f + f') _ _ _ ltac:(lia) Hf').
Qed.
Lemma ex_stop r s ss r' v : st r s (r', Some v) -> ex r (s :: ss) (r', Some v).
Proof. intros [f Hf]. exists (S f). rewrite exec_S. now rewrite Hf. Qed.
Lemma st_let r x e v : ev r e v -> st r (SLet x e) (upd r x v, None).
Proof. intros [f Hf]. exists (S f). rewrite step_S. now rewrite Hf. Qed.
Lemma st_set r x e v : ev r e v -> st r (SSet x e) (upd r x v, None).
Proof. intros [f Hf]. exists (S f). rewrite step_S. now rewrite Hf. Qed.
Lemma st_if_true r c t e o : ev r c (VBool true) -> ex r t o -> st r (SIf c t e) o.
Proof.
  intros [f Hf] [f' Hf']. exists (S (f + f')). rewrite step_S.
  rewrite (up_eval f (f + f') _ _ _ ltac:(lia) Hf).
  exact (up_exec f' (f + f') _ _ _ ltac:(lia) Hf').
Qed.
Lemma st_if_false r c t : ev r c (VBool false) -> st r (SIf c t None) (r, None).
Proof. intros [f Hf]. exists (S f). rewrite step_S. now rewrite Hf. Qed.
Lemma st_while_false r c b : ev r c (VBool false) -> st r (SWhile c b) (r, None).
Proof. intros [f Hf]. exists (S f). rewrite step_S. now rewrite Hf. Qed.
Lemma st_while_true r c b r' o :
  ev r c (VBool true) -> ex r b (r', None) -> st r' (SWhile c b) o -> st r (SWhile c b) o.
Proof.
  intros [f Hf] [f1 Hf1] [f2 Hf2]. exists (S (f + f1 + f2)). rewrite step_S.
  rewrite (up_eval f (f + f1 + f2) _ _ _ ltac:(lia) Hf).
  rewrite (up_exec f1 (f + f1 + f2) _ _ _ ltac:(lia) Hf1).
  exact (up_step f2 (f + f1 + f2) _ _ _ ltac:(lia) Hf2).
Qed.
Lemma st_return r e v : ev r e v -> st r (SReturn (Some e)) (r, Some v).
Proof. intros [f Hf]. exists (S f). rewrite step_S. now rewrite Hf. Qed.

End Mono.

(** ** Sums *)

Fixpoint zsum (F : nat -> Z) (lo len : nat) : Z :=
  match len with
  | O => 0
  | S len => F lo + zsum F (S lo) len
  end.

Lemma zsum_ext F F' lo len :
  (forall c, (lo <= c < lo + len)%nat -> F c = F' c) -> zsum F lo len = zsum F' lo len.
Proof.
  revert lo. induction len as [|len IH]; intros lo H; cbn [zsum]; [reflexivity|].
  rewrite (H lo) by lia. f_equal. apply IH. intros. apply H. lia.
Qed.
Lemma zsum_app F lo a b : zsum F lo (a + b) = zsum F lo a + zsum F (lo + a) b.
Proof.
  revert lo. induction a as [|a IH]; intros lo; cbn [zsum Nat.add].
  - now rewrite Nat.add_0_r.
  - rewrite IH. replace (lo + S a)%nat with (S lo + a)%nat by lia. lia.
Qed.
Lemma zsum_last F lo len : zsum F lo (S len) = zsum F lo len + F (lo + len)%nat.
Proof.
  replace (S len) with (len + 1)%nat by lia. rewrite zsum_app. cbn [zsum]. lia.
Qed.
Lemma zsum_mirror F lo len :
  zsum F lo len = zsum (fun c => F (lo + len - 1 + lo - c)%nat) lo len.
Proof.
  revert F lo. induction len as [|len IH]; intros F lo; [reflexivity|].
  rewrite zsum_last. cbn [zsum]. rewrite (IH F lo).
  replace (lo + S len - 1 + lo - lo)%nat with (lo + len)%nat by lia.
  rewrite Z.add_comm. f_equal.
  destruct len as [|len]; [reflexivity|].
  rewrite (IH (fun c => F (lo + S (S len) - 1 + lo - c)%nat) (S lo)).
  (* both sides mirrored once more *)
  rewrite <- (IH F lo).
  clear IH. revert F lo. 
  assert (Shift : forall len F lo, zsum F lo len = zsum (fun c => F (c - 1)%nat) (S lo) len).
  { clear. induction len as [|len IH]; intros F lo; cbn [zsum]; [reflexivity|].
    rewrite IH. replace (S lo - 1)%nat with lo by lia. reflexivity. }
  intros F lo. rewrite Shift. apply zsum_ext. intros c Hc. f_equal. lia.
Qed.

(** ** Bits *)

Lemma bit_of_pow c j : Z.testbit (2 ^ Z.of_nat c) (Z.of_nat j) = Nat.eqb j c.
Proof.
  destruct (Nat.eqb_spec j c) as [->|Hne].
  - apply Z.pow2_bits_true. lia.
  - apply Z.pow2_bits_false. lia.
Qed.
Lemma shl_one c : Z.shiftl 1 (Z.of_nat c) = 2 ^ Z.of_nat c.
Proof. rewrite Z.shiftl_mul_pow2 by lia. lia. Qed.

Lemma low_bit_value x c :
  Z.testbit x (Z.of_nat c) = true ->
  (forall j, (j < c)%nat -> Z.testbit x (Z.of_nat j) = false) ->
  Z.land x (0 - x) = 2 ^ Z.of_nat c.
Proof.
  intros Hc Hlow.
  set (k := Z.of_nat c) in *.
  assert (Hk : 0 <= k) by lia.
  assert (Hx : x = Z.shiftl (Z.shiftr x k) k).
  { apply Z.bits_inj'. intros j Hj. destruct (Z.lt_ge_cases j k) as [Hlt|Hge].
    - rewrite Z.shiftl_spec_low by lia.
      specialize (Hlow (Z.to_nat j) ltac:(lia)). rewrite Z2Nat.id in Hlow by lia. exact Hlow.
    - rewrite Z.shiftl_spec, Z.shiftr_spec by lia. f_equal. lia. }
  set (q := Z.shiftr x k) in *.
  assert (Hq : Z.odd q = true).
  { unfold q. rewrite <- Z.bit0_odd, Z.shiftr_spec by lia. exact Hc. }
  replace (0 - x) with (Z.shiftl (- q) k).
  2:{ rewrite Hx. rewrite !Z.shiftl_mul_pow2 by lia. lia. }
  rewrite Hx at 1. rewrite <- Z.shiftl_land.
  replace (Z.land q (- q)) with 1.
  { rewrite Z.shiftl_mul_pow2 by lia. lia. }
  apply Z.odd_spec in Hq. destruct Hq as [y Hy].
  rewrite Hy. apply Z.bits_inj'. intros j Hj.
  replace (- (2 * y + 1)) with (2 * Z.lnot y + 1) by (unfold Z.lnot; lia).
  rewrite Z.land_spec.
  destruct (Z.eq_dec j 0) as [->|Hne].
  - rewrite !Z.testbit_odd_0. reflexivity.
  - replace j with (Z.succ (j - 1)) by lia.
    rewrite !Z.testbit_odd_succ by lia. rewrite Z.lnot_spec by lia.
    rewrite andb_negb_r. change 1 with (2 ^ 0). rewrite Z.pow2_bits_false by lia. reflexivity.
Qed.

Lemma small_bits x n :
  0 <= x < 2 ^ Z.of_nat n -> forall j, Z.of_nat n <= j -> Z.testbit x j = false.
Proof.
  intros Hx j Hj. destruct (Z.eq_dec x 0) as [->|Hne]; [apply Z.bits_0|].
  apply Z.bits_above_log2; [lia|].
  assert (Z.log2 x < Z.of_nat n) by (apply Z.log2_lt_pow2; lia). lia.
Qed.

Lemma full_bits n j :
  0 <= j -> Z.testbit (2 ^ Z.of_nat n - 1) j = (j <? Z.of_nat n).
Proof.
  intros Hj. replace (2 ^ Z.of_nat n - 1) with (Z.ones (Z.of_nat n)) by (rewrite Z.ones_equiv; lia).
  destruct (Z.ltb_spec j (Z.of_nat n)).
  - apply Z.ones_spec_low. lia.
  - apply Z.ones_spec_high. lia.
Qed.

(** ** Counting *)

(** Occupied columns of a state. *)
Definition occ (cols d1 d2 : Z) (c : nat) : bool :=
  Z.testbit cols (Z.of_nat c) || Z.testbit d1 (Z.of_nat c) || Z.testbit d2 (Z.of_nat c).

Fixpoint count (n k : nat) (cols d1 d2 : Z) : Z :=
  match k with
  | O => 1
  | S k =>
      zsum (fun c => if occ cols d1 d2 c then 0
                     else count n k (Z.lor cols (2 ^ Z.of_nat c))
                            (Z.shiftl (Z.lor d1 (2 ^ Z.of_nat c)) 1)
                            (Z.shiftr (Z.lor d2 (2 ^ Z.of_nat c)) 1)) 0 n
  end.

Definition sub (n : nat) (c : nat) : Z :=
  count n (n - 1) (2 ^ Z.of_nat c) (Z.shiftl (2 ^ Z.of_nat c) 1) (Z.shiftr (2 ^ Z.of_nat c) 1).

Definition tb (x : Z) (j : nat) : bool := Z.testbit x (Z.of_nat j).

Lemma tb_shl x j : tb (Z.shiftl x 1) j = match j with O => false | S j => tb x j end.
Proof.
  unfold tb. destruct j as [|j].
  - apply Z.shiftl_spec_low. lia.
  - rewrite Z.shiftl_spec by lia. f_equal. lia.
Qed.
Lemma tb_shr x j : tb (Z.shiftr x 1) j = tb x (S j).
Proof. unfold tb. rewrite Z.shiftr_spec by lia. f_equal. lia. Qed.
Lemma tb_lor x y j : tb (Z.lor x y) j = tb x j || tb y j.
Proof. apply Z.lor_spec. Qed.
Lemma tb_pow c j : tb (2 ^ Z.of_nat c) j = Nat.eqb j c.
Proof. apply bit_of_pow. Qed.

Lemma count_mirror n k cols d1 d2 cols' d1' d2' :
  (forall j, (j < n)%nat -> tb cols' j = tb cols (n - 1 - j)) ->
  (forall j, (j < n)%nat -> tb d1' j = tb d2 (n - 1 - j)) ->
  (forall j, (j < n)%nat -> tb d2' j = tb d1 (n - 1 - j)) ->
  (forall j, (n <= j)%nat -> tb d2 j = false) ->
  (forall j, (n <= j)%nat -> tb d2' j = false) ->
  count n k cols d1 d2 = count n k cols' d1' d2'.
Proof.
  revert cols d1 d2 cols' d1' d2'.
  induction k as [|k IH]; intros cols d1 d2 cols' d1' d2' Hc H1 H2 Z2 Z2'; [reflexivity|].
  cbn [count]. rewrite zsum_mirror. apply zsum_ext. intros c [_ Hlt].
  cbn [Nat.add] in Hlt |- *. replace (n - 1 + 0 - c)%nat with (n - 1 - c)%nat by lia.
  assert (Ho : occ cols' d1' d2' c = occ cols d1 d2 (n - 1 - c)).
  { unfold occ. specialize (Hc c Hlt). specialize (H1 c Hlt). specialize (H2 c Hlt).
    unfold tb in *. rewrite Hc, H1, H2.
    destruct (Z.testbit cols _), (Z.testbit d1 _), (Z.testbit d2 _); reflexivity. }
  rewrite Ho. destruct (occ cols d1 d2 (n - 1 - c)); [reflexivity|].
  assert (Hm : forall j, (j < n)%nat -> Nat.eqb j c = Nat.eqb (n - 1 - j) (n - 1 - c)).
  { intros j Hj. destruct (Nat.eqb_spec j c), (Nat.eqb_spec (n - 1 - j) (n - 1 - c)); lia. }
  apply IH.
  - intros j Hj. rewrite !tb_lor, !tb_pow, (Hc j Hj), (Hm j Hj). reflexivity.
  - intros j Hj. rewrite tb_shl, tb_shr. destruct j as [|j].
    + rewrite tb_lor, tb_pow, Z2 by lia. symmetry. cbn [orb]. apply Nat.eqb_neq. lia.
    + rewrite !tb_lor, !tb_pow, (H1 j ltac:(lia)), (Hm j ltac:(lia)).
      replace (S (n - 1 - S j)) with (n - 1 - j)%nat by lia. reflexivity.
  - intros j Hj. rewrite tb_shl, tb_shr. destruct (n - 1 - j)%nat as [|i] eqn:Ei.
    + rewrite tb_lor, tb_pow, Z2' by lia. cbn [orb]. apply Nat.eqb_neq. lia.
    + rewrite !tb_lor, !tb_pow, (H2 (S j) ltac:(lia)), (Hm (S j) ltac:(lia)).
      replace (n - 1 - S j)%nat with i by lia. reflexivity.
  - intros j Hj. rewrite tb_shr, tb_lor, tb_pow, Z2 by lia. cbn [orb]. apply Nat.eqb_neq. lia.
  - intros j Hj. rewrite tb_shr, tb_lor, tb_pow, Z2' by lia. cbn [orb]. apply Nat.eqb_neq. lia.
Qed.

Lemma sub_mirror n c : (c < n)%nat -> sub n c = sub n (n - 1 - c).
Proof.
  intros Hc. unfold sub. apply count_mirror.
  - intros j Hj. rewrite !tb_pow.
    destruct (Nat.eqb_spec j (n - 1 - c)), (Nat.eqb_spec (n - 1 - j) c); lia.
  - intros j Hj. rewrite tb_shl, tb_shr, tb_pow. destruct j as [|j].
    + symmetry. apply Nat.eqb_neq. lia.
    + rewrite tb_pow.
      destruct (Nat.eqb_spec j (n - 1 - c)), (Nat.eqb_spec (S (n - 1 - S j)) c); lia.
  - intros j Hj. rewrite tb_shl, tb_shr, tb_pow. destruct (n - 1 - j)%nat as [|i] eqn:Ei.
    + apply Nat.eqb_neq. lia.
    + rewrite tb_pow. destruct (Nat.eqb_spec (S j) (n - 1 - c)), (Nat.eqb_spec i c); lia.
  - intros j Hj. rewrite tb_shr, tb_pow. apply Nat.eqb_neq. lia.
  - intros j Hj. rewrite tb_shr, tb_pow. apply Nat.eqb_neq. lia.
Qed.

Lemma half_sum n :
  zsum (sub n) 0 n
  = 2 * zsum (sub n) 0 (n / 2) + (if Nat.odd n then sub n (n / 2) else 0).
Proof.
  set (h := (n / 2)%nat).
  assert (Hn : n = (h + ((if Nat.odd n then 1 else 0) + h))%nat).
  { pose proof (Nat.div2_odd n) as D. rewrite Nat.div2_div in D. fold h in D.
    destruct (Nat.odd n); cbn [Nat.b2n] in D; lia. }
  assert (Hhi : forall lo, (lo + h = n)%nat -> zsum (sub n) lo h = zsum (sub n) 0 h).
  { intros lo Hlo. rewrite zsum_mirror.
    assert (Sh : forall F a len, zsum F a len = zsum (fun c => F (a + c)%nat) 0 len).
    { clear. intros F a len. revert F a. induction len as [|len IH]; intros F a; cbn [zsum]; [reflexivity|].
      rewrite (IH F (S a)), (IH (fun c => F (a + c)%nat) 1%nat).
      replace (a + 0)%nat with a by lia. f_equal. apply zsum_ext. intros. f_equal. lia. }
    rewrite Sh. apply zsum_ext. intros c [_ Hc]. cbn [Nat.add] in Hc.
    rewrite (sub_mirror n c) by lia. f_equal. lia. }
  rewrite Hn at 2. rewrite zsum_app, zsum_app.
  destruct (Nat.odd n); cbn [zsum Nat.add] in *.
  - rewrite (Hhi (h + 1)%nat) by lia. lia.
  - rewrite (Hhi (h + 0)%nat) by lia. lia.
Qed.
