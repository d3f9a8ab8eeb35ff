(** Proofs for C92. *)
From Coq Require Import List Bool Lia ZArith.
From stdpp Require Import base decidable list strings pretty.
From Verif Require Import SubstModel SubstProofs SubstProps RecheckModel.

Section Proofs.
Variable leaf : Type.
Notation name := string.
Notation term := (term leaf).
Notation db := (RecheckModel.db leaf).
Notation Var := (RecheckModel.Var leaf). Notation Leaf := (RecheckModel.Leaf leaf). Notation Node := (RecheckModel.Node leaf). Notation Bind := (RecheckModel.Bind leaf). Notation Mutual := (RecheckModel.Mutual leaf).
Notation to_db := (to_db leaf). Notation from_db := (from_db leaf). Notation shift := (shift leaf). Notation subst := (subst leaf). Notation beta_open := (beta_open leaf). Notation open_loop := (open_loop leaf). Notation open_mutual := (open_mutual leaf).
Lemma ddb_ind2 (P : db -> Prop) : (forall k, P (Var k)) -> (forall l, P (Leaf l)) -> (forall k ds, List.Forall P ds -> P (Node k ds)) ->
  (forall k ds d, List.Forall P ds -> P d -> P (Bind k ds d)) -> (forall ds i, List.Forall P ds -> P (Mutual ds i)) -> forall t, P t.
Proof.
  intros H1 H2 H3 H4 H5. fix IH 1. intros [k|l|k ds|k ds d|ds i]; [apply H1|apply H2|apply H3|apply H4; [|apply IH]|apply H5].
  - induction ds as [|d ds IHds]; constructor; [apply IH|apply IHds].
  - induction ds as [|d' ds IHds]; constructor; [apply IH|apply IHds].
  - induction ds as [|d ds IHds]; constructor; [apply IH|apply IHds].
Qed.
(** ** All variables replaced at once *)
Definition upr (n : nat) (f : nat -> nat) (k : nat) : nat := if decide (k < n) then k else f (k - n) + n.
Fixpoint ren (f : nat -> nat) (t : db) : db :=
  match t with
  | RecheckModel.Var _ k => Var (f k) | RecheckModel.Leaf _ l => Leaf l
  | RecheckModel.Node _ k ds => Node k (map (ren f) ds)
  | RecheckModel.Bind _ k ds d => Bind k (map (ren f) ds) (ren (upr 1 f) d)
  | RecheckModel.Mutual _ ds i => Mutual (map (ren (upr (length ds) f)) ds) i
  end.
Definition ups (n : nat) (s : nat -> db) (k : nat) : db := if decide (k < n) then Var k else ren (fun i => i + n) (s (k - n)).
Fixpoint inst (s : nat -> db) (t : db) : db :=
  match t with
  | RecheckModel.Var _ k => s k | RecheckModel.Leaf _ l => Leaf l
  | RecheckModel.Node _ k ds => Node k (map (inst s) ds)
  | RecheckModel.Bind _ k ds d => Bind k (map (inst s) ds) (inst (ups 1 s) d)
  | RecheckModel.Mutual _ ds i => Mutual (map (inst (ups (length ds) s)) ds) i
  end.
Definition scons (a : db) (s : nat -> db) (k : nat) : db := match k with O => a | S k => s k end.
Ltac under IH := rewrite List.Forall_forall in IH; apply map_ext_in; intros ? Hin; apply (IH _ Hin).
Lemma ren_ext t : forall f g, (forall k, f k = g k) -> ren f t = ren g t.
Proof.
  induction t as [k|l|k ds IH|k ds d IH IHd|ds i IH] using ddb_ind2; intros f g H; cbn [ren]; try done.
  - now rewrite H.
  - f_equal. under IH. done.
  - f_equal; [under IH; done|]. apply IHd. intros k'. unfold upr. destruct (decide _); [done|]. now rewrite H.
  - f_equal. under IH. intros k'. unfold upr. destruct (decide _); [done|]. now rewrite H.
Qed.
Lemma inst_ext t : forall f g, (forall k, f k = g k) -> inst f t = inst g t.
Proof.
  induction t as [k|l|k ds IH|k ds d IH IHd|ds i IH] using ddb_ind2; intros f g H; cbn [inst]; try done.
  - f_equal. under IH. done.
  - f_equal; [under IH; done|]. apply IHd. intros k'. unfold ups. destruct (decide _); [done|]. now rewrite H.
  - f_equal. under IH. intros k'. unfold ups. destruct (decide _); [done|]. now rewrite H.
Qed.
Lemma ren_ren t : forall f g, ren g (ren f t) = ren (fun k => g (f k)) t.
Proof.
  assert (U : forall n f g k, upr n g (upr n f k) = upr n (fun k => g (f k)) k). { intros n f g k. unfold upr. destruct (decide (k < n)); [destruct (decide _); [done|lia]|]. destruct (decide _); [lia|]. f_equal. f_equal. lia. }
  induction t as [k|l|k ds IH|k ds d IH IHd|ds i IH] using ddb_ind2; intros f g; cbn [ren]; try done.
  - f_equal. rewrite map_map. under IH.
  - f_equal; [rewrite map_map; under IH|]. rewrite IHd. apply ren_ext. apply U.
  - rewrite map_length. f_equal. rewrite map_map. rewrite List.Forall_forall in IH. apply map_ext_in. intros d Hd. rewrite (IH d Hd). apply ren_ext. apply U.
Qed.
Lemma inst_ren t : forall f s, inst s (ren f t) = inst (fun k => s (f k)) t.
Proof.
  assert (U : forall n f s k, ups n s (upr n f k) = ups n (fun k => s (f k)) k). { intros n f s k. unfold upr, ups. destruct (decide (k < n)); [destruct (decide _); [done|lia]|]. destruct (decide _); [lia|]. f_equal. f_equal. lia. }
  induction t as [k|l|k ds IH|k ds d IH IHd|ds i IH] using ddb_ind2; intros f s; cbn [ren inst]; try done.
  - f_equal. rewrite map_map. under IH.
  - f_equal; [rewrite map_map; under IH|]. rewrite IHd. apply inst_ext. apply U.
  - rewrite map_length. f_equal. rewrite map_map. rewrite List.Forall_forall in IH. apply map_ext_in. intros d Hd. rewrite (IH d Hd). apply inst_ext. apply U.
Qed.
Lemma ren_inst t : forall f s, ren f (inst s t) = inst (fun k => ren f (s k)) t.
Proof.
  assert (U : forall n f s k, ren (upr n f) (ups n s k) = ups n (fun k => ren f (s k)) k). { intros n f s k. unfold ups. destruct (decide (k < n)); [cbn; unfold upr; destruct (decide _); [done|lia]|]. rewrite !ren_ren. apply ren_ext. intros i. unfold upr. destruct (decide _); [lia|]. f_equal. f_equal. lia. }
  induction t as [k|l|k ds IH|k ds d IH IHd|ds i IH] using ddb_ind2; intros f s; cbn [ren inst]; try done.
  - f_equal. rewrite map_map. under IH.
  - f_equal; [rewrite map_map; under IH|]. rewrite IHd. apply inst_ext. apply U.
  - rewrite map_length. f_equal. rewrite map_map. rewrite List.Forall_forall in IH. apply map_ext_in. intros d Hd. rewrite (IH d Hd). apply inst_ext. apply U.
Qed.
Lemma inst_inst t : forall s r, inst r (inst s t) = inst (fun k => inst r (s k)) t.
Proof.
  assert (U : forall n s r k, inst (ups n r) (ups n s k) = ups n (fun k => inst r (s k)) k). { intros n s r k. unfold ups at 2 3. destruct (decide (k < n)); [cbn; unfold ups; destruct (decide _); [done|lia]|]. rewrite inst_ren, ren_inst. apply inst_ext. intros i. unfold ups. destruct (decide _); [lia|]. f_equal. f_equal. lia. }
  induction t as [k|l|k ds IH|k ds d IH IHd|ds i IH] using ddb_ind2; intros s r; cbn [inst]; try done.
  - f_equal. rewrite map_map. under IH.
  - f_equal; [rewrite map_map; under IH|]. rewrite IHd. apply inst_ext. apply U.
  - rewrite map_length. f_equal. rewrite map_map. rewrite List.Forall_forall in IH. apply map_ext_in. intros d Hd. rewrite (IH d Hd). apply inst_ext. apply U.
Qed.
(** ** Shifting and substitution *)
Lemma mapM_map {A B} (f : A -> option B) (g : A -> B) l : (forall a, In a l -> f a = Some (g a)) -> mapM f l = Some (map g l).
Proof. induction l as [|a l IH]; intros H; [done|]. cbn. rewrite (H a (or_introl eq_refl)). cbn. rewrite IH; [done|]. intros b Hb. apply H. now right. Qed.
Definition above (c n k : nat) : nat := if decide (c <= k) then k + n else k.
Lemma upr_above m c n k : upr m (above c n) k = above (c + m) n k.
Proof. unfold upr, above. repeat destruct (decide _); lia. Qed.
Lemma shift_up n t : forall c, shift (Z.of_nat n) c t = Some (ren (above c n) t).
Proof.
  induction t as [k|l|k ds IH|k ds d IH IHd|ds i IH] using ddb_ind2; intros c; cbn [RecheckModel.shift ren]; try done.
  - unfold above. destruct (decide (c <= k)); [|done]. destruct (decide _); [lia|]. do 2 f_equal. lia.
  - rewrite List.Forall_forall in IH. rewrite (mapM_map _ (ren (above c n))) by (intros; now apply IH). done.
  - rewrite List.Forall_forall in IH. rewrite (mapM_map _ (ren (above c n))) by (intros; now apply IH). cbn [mbind option_bind]. rewrite IHd. cbn. do 2 f_equal. apply ren_ext. intros k'. rewrite upr_above. f_equal. lia.
  - rewrite List.Forall_forall in IH. rewrite (mapM_map _ (ren (above (c + length ds) n))) by (intros; now apply IH). cbn. do 2 f_equal. apply map_ext. intros d. apply ren_ext. intros k'. now rewrite upr_above.
Qed.
Lemma shift_up0 n t : shift (Z.of_nat n) 0 t = Some (ren (fun k => k + n) t).
Proof. rewrite shift_up. f_equal. Qed.
Lemma shift_up1 t : shift 1 0 t = Some (ren (fun k => k + 1) t).
Proof. exact (shift_up0 1 t). Qed.
Lemma shift_down t : forall c, shift (-1) c (ren (above c 1) t) = Some t.
Proof.
  induction t as [k|l|k ds IH|k ds d IH IHd|ds i IH] using ddb_ind2; intros c; cbn [RecheckModel.shift ren]; try done.
  - unfold above. destruct (decide (c <= k)); cbn; (destruct (decide _); [|first [lia|done]]); [|lia]. destruct (decide _); [lia|]. do 2 f_equal. lia.
  - rewrite List.Forall_forall in IH. assert (E : mapM (shift (-1) c) (map (ren (above c 1)) ds) = Some ds). { clear -IH. induction ds as [|d ds IHds]; [done|]. cbn. rewrite (IH d (or_introl eq_refl)). cbn. rewrite IHds; [done|]. intros x Hx. apply IH. now right. } rewrite E. done.
  - rewrite List.Forall_forall in IH. assert (E : mapM (shift (-1) c) (map (ren (above c 1)) ds) = Some ds). { clear -IH. induction ds as [|d' ds IHds]; [done|]. cbn. rewrite (IH d' (or_introl eq_refl)). cbn. rewrite IHds; [done|]. intros x Hx. apply IH. now right. } rewrite E. cbn [mbind option_bind].
    rewrite (ren_ext d _ (above (S c) 1)), IHd; [done|]. intros k'. rewrite upr_above. f_equal. lia.
  - rewrite List.Forall_forall in IH. rewrite map_length. assert (E : forall n, mapM (shift (-1) (c + n)) (map (ren (upr n (above c 1))) ds) = Some ds). { intros n. clear -IH. induction ds as [|d ds IHds]; [done|]. cbn. rewrite (ren_ext d _ (above (c + n) 1)), (IH d (or_introl eq_refl)) by (intros; apply upr_above). cbn. rewrite IHds; [done|]. intros x Hx. apply IH. now right. } rewrite E. done.
Qed.
Definition at_ (j : nat) (s : db) (k : nat) : db := if decide (k = j) then s else Var k.
Lemma ups_at n j s k : ups n (at_ j s) k = at_ (j + n) (ren (fun i => i + n) s) k.
Proof. unfold ups, at_. destruct (decide (k < n)); [destruct (decide _); [lia|done]|]. destruct (decide (k - n = j)), (decide (k = j + n)); try lia; [done|]. cbn. f_equal. lia. Qed.
Lemma subst_inst t : forall j s, subst j s t = Some (inst (at_ j s) t).
Proof.
  induction t as [k|l|k ds IH|k ds d IH IHd|ds i IH] using ddb_ind2; intros j s; cbn [RecheckModel.subst inst]; try done.
  - rewrite List.Forall_forall in IH. rewrite (mapM_map _ (inst (at_ j s))) by (intros; now apply IH). done.
  - rewrite List.Forall_forall in IH. rewrite (mapM_map _ (inst (at_ j s))) by (intros; now apply IH). cbn [mbind option_bind]. rewrite shift_up1. cbn [mbind option_bind]. rewrite IHd. cbn. do 2 f_equal. apply inst_ext. intros k'. rewrite ups_at. f_equal. lia.
  - rewrite List.Forall_forall in IH. rewrite shift_up0. cbn [mbind option_bind]. rewrite (mapM_map _ (inst (at_ (j + length ds) (ren (fun i => i + length ds) s)))) by (intros; now apply IH). cbn. do 2 f_equal. apply map_ext. intros d. apply inst_ext. intros k'. now rewrite ups_at.
Qed.
Lemma beta_inst body arg : beta_open body arg = Some (inst (scons arg Var) body).
Proof.
  unfold RecheckModel.beta_open. rewrite shift_up1. cbn [mbind option_bind]. rewrite subst_inst. cbn [mbind option_bind]. rewrite <- (shift_down (inst (scons arg Var) body) 0). f_equal. rewrite ren_inst. apply inst_ext. intros [|k]; unfold at_; [done|]. destruct (decide (S k = 0)); [lia|]. cbn. unfold above. f_equal. destruct (decide (0 <= k)); lia.
Qed.
(** ** Mutual blocks *)
Fixpoint closed (c : nat) (t : db) : bool :=
  match t with
  | RecheckModel.Var _ k => bool_decide (k < c) | RecheckModel.Leaf _ _ => true
  | RecheckModel.Node _ _ ds => forallb (closed c) ds
  | RecheckModel.Bind _ _ ds d => forallb (closed c) ds && closed (S c) d
  | RecheckModel.Mutual _ ds _ => forallb (closed (c + length ds)) ds
  end.
Lemma inst_closed t : forall c s, (forall k, k < c -> s k = Var k) -> closed c t = true -> inst s t = t.
Proof.
  assert (U : forall n c s, (forall k, k < c -> s k = Var k) -> forall k, k < c + n -> ups n s k = Var k). { intros n c s H k L. unfold ups. destruct (decide (k < n)); [done|]. rewrite H by lia. cbn. f_equal. lia. }
  induction t as [k|l|k ds IH|k ds d IH IHd|ds i IH] using ddb_ind2; intros c s H C; cbn [inst closed] in *; try done.
  - apply bool_decide_eq_true in C. auto.
  - rewrite List.Forall_forall in IH. rewrite forallb_forall in C. f_equal. rewrite <- (map_id ds) at 2. apply map_ext_in. intros d Hd. apply (IH d Hd c); auto.
  - apply andb_true_iff in C as [C Cd]. rewrite List.Forall_forall in IH. rewrite forallb_forall in C. f_equal; [rewrite <- (map_id ds) at 2; apply map_ext_in; intros e He; apply (IH e He c); auto|]. apply (IHd (S c)); [|done]. intros k' L. apply (U 1 c); [done|lia].
  - rewrite List.Forall_forall in IH. rewrite forallb_forall in C. f_equal. rewrite <- (map_id ds) at 3. apply map_ext_in. intros d Hd. apply (IH d Hd (c + length ds)); [now apply U|auto].
Qed.
Definition names (defs : list db) (m : nat) : db := if decide (m < length defs) then Mutual defs (length defs - 1 - m) else Var (m - length defs).
Lemma open_loop_ok defs d : closed 0 (Mutual defs 0) = true -> forall todo k, k + todo = length defs ->
  open_loop defs k todo (inst (fun m => if decide (m < k) then Mutual defs (length defs - 1 - m) else Var (m - k)) d) = Some (inst (names defs) d).
Proof.
  intros C. induction todo as [|todo IH]; intros k L; cbn [RecheckModel.open_loop].
  - f_equal. apply inst_ext. intros m. unfold names. replace k with (length defs) by lia. done.
  - rewrite beta_inst. cbn [mbind option_bind]. rewrite inst_inst. rewrite <- (IH (S k) ltac:(lia)). f_equal. apply inst_ext. intros m. destruct (decide (m < k)).
    + destruct (decide (m < S k)); [|lia]. apply (inst_closed _ 0); [lia|]. exact C.
    + cbn [inst]. destruct (decide (m < S k)); [replace (m - k) with 0 by lia; cbn; do 2 f_equal; lia|]. replace (m - k) with (S (m - S k)) by lia. done.
Qed.
Lemma inst_var t : inst Var t = t.
Proof.
  assert (U : forall n k, ups n Var k = Var k). { intros n k. unfold ups. destruct (decide (k < n)); [done|]. cbn. f_equal. lia. }
  induction t as [k|l|k ds IH|k ds d IH IHd|ds i IH] using ddb_ind2; cbn [inst]; try done.
  - rewrite List.Forall_forall in IH. f_equal. rewrite <- (map_id ds) at 2. now apply map_ext_in.
  - rewrite List.Forall_forall in IH. f_equal; [rewrite <- (map_id ds) at 2; now apply map_ext_in|]. rewrite <- IHd at 2. apply inst_ext. apply U.
  - rewrite List.Forall_forall in IH. f_equal. rewrite <- (map_id ds) at 3. apply map_ext_in. intros d Hd. rewrite <- (IH d Hd) at 2. apply inst_ext. apply U.
Qed.
Lemma open_mutual_ok defs i d : closed 0 (Mutual defs 0) = true -> defs !! i = Some d -> open_mutual defs i = Some (inst (names defs) d).
Proof.
  intros C E. unfold RecheckModel.open_mutual. rewrite E. cbn [mbind option_bind]. rewrite <- (open_loop_ok defs d C (length defs) 0) by lia. f_equal. rewrite <- (inst_var d) at 1. apply inst_ext. intros m. cbn. f_equal. lia.
Qed.
(** ** Named terms *)
Notation ndb := (SubstProofs.db leaf). Notation nameless := (nameless leaf).
Fixpoint convd (s : list name) (k : nat) (d : ndb) : res db :=
  match d with
  | DIdx _ i => Ok (Var i)
  | DFree _ x => match position x s with Some i => Ok (Var (k + i)) | None => Ill end
  | DLeaf _ l => Ok (Leaf l) | DHole _ => Unsupported
  | DNode _ j ds => rbind (rmap (convd s k) ds) (fun ds => Ok (Node j ds))
  | DBind _ j ds d => rbind (rmap (convd s k) ds) (fun ds => rbind (convd s (S k) d) (fun d => Ok (Bind j ds d)))
  end.
Lemma rmap_map {A B C} (f : A -> B) (g : B -> res C) l : rmap g (map f l) = rmap (fun a => g (f a)) l.
Proof. induction l as [|a l IH]; [done|]. cbn. now rewrite IH. Qed.
Lemma rmap_ext {A B} (f g : A -> res B) l : (forall a, In a l -> f a = g a) -> rmap f l = rmap g l.
Proof. induction l as [|a l IH]; intros H; [done|]. cbn. rewrite (H a (or_introl eq_refl)), IH; [done|]. intros b Hb. apply H. now right. Qed.
Lemma rmap_ok {A B} (f : A -> res B) l r : rmap f l = Ok r <-> Forall2 (fun a b => f a = Ok b) l r.
Proof.
  revert r. induction l as [|a l IH]; intros r; cbn; [split; [intros [= <-]; constructor|intros H; inversion H; done]|]. split.
  - destruct (f a) as [b| |] eqn:E; cbn; try done. destruct (rmap f l) as [bs| |]; cbn; try done. intros [= <-]. constructor; [done|]. now apply IH.
  - intros H. inversion H as [|? b ? bs H1 H2]; subst. rewrite H1. cbn. apply IH in H2. rewrite H2. done.
Qed.
Lemma position_index x s : position x s = index x s.
Proof. induction s as [|y s IH]; [done|]. cbn. now rewrite IH. Qed.
Lemma to_db_convd t s : forall s1, to_db (s1 ++ s) t = convd s (length s1) (nameless s1 t).
Proof.
  induction t as [x|l| |k ts IH|k ts x b IH IHb] using (term_ind2 leaf); intros s1; try done; cbn [RecheckModel.to_db SubstProofs.nameless convd].
  - rewrite !position_index, index_app. destruct (index x s1) as [i|]; [done|]. cbn [convd]. change (position x s) with (index x s). destruct (index x s); done.
  - rewrite rmap_map. rewrite List.Forall_forall in IH. rewrite (rmap_ext _ _ _ (fun t Ht => IH t Ht s1)). done.
  - rewrite rmap_map. rewrite List.Forall_forall in IH. rewrite (rmap_ext _ _ _ (fun t Ht => IH t Ht s1)). pose proof (IHb (x :: s1)) as Hb. cbn [app length] in Hb. rewrite Hb. done.
Qed.
Fixpoint lclosed (c : nat) (d : ndb) : Prop :=
  match d with DIdx _ i => i < c | DFree _ _ | DLeaf _ _ | DHole _ => True | DNode _ _ ds => List.Forall (fun P => P) (map (lclosed c) ds) | DBind _ _ ds d => List.Forall (fun P => P) (map (lclosed c) ds) /\ lclosed (S c) d end.
Lemma lclosed_nameless t : forall s, lclosed (length s) (nameless s t).
Proof.
  induction t as [x|l| |k ts IH|k ts x b IH IHb] using (term_ind2 leaf); intros s; try done; cbn [SubstProofs.nameless lclosed].
  - destruct (index x s) as [i|] eqn:E; cbn; [now apply index_lt in E|done].
  - rewrite List.Forall_forall in *. intros P HP. rewrite map_map in HP. apply in_map_iff in HP as (t & <- & Ht). auto.
  - split; [|apply (IHb (x :: s))]. rewrite List.Forall_forall in *. intros P HP. rewrite map_map in HP. apply in_map_iff in HP as (t & <- & Ht). auto.
Qed.
Lemma convd_weaken s n d : forall c e, lclosed c d -> convd s c d = Ok e -> convd s (c + n) d = Ok (ren (above c n) e).
Proof.
  induction d as [i|x|l| |j ds IH|j ds b IH IHb] using (db_ind2 leaf); intros c e L E; cbn [convd lclosed] in *.
  - injection E as <-. cbn. unfold above. destruct (decide (c <= i)); [lia|done].
  - destruct (position x s) as [i|]; [|done]. injection E as <-. cbn. unfold above. destruct (decide _); [|lia]. do 2 f_equal. lia.
  - injection E as <-. done.
  - done.
  - destruct (rmap (convd s c) ds) as [es| |] eqn:E1; [|done|done]. injection E as <-. apply rmap_ok in E1. cbn.
    assert (F : rmap (convd s (c + n)) ds = Ok (map (ren (above c n)) es)); [|now rewrite F]. apply rmap_ok. rewrite List.Forall_map in L. clear -IH L E1. induction E1 as [|d e ds es H1 _ IHf]; [constructor|]. inversion IH; inversion L; subst. constructor; auto.
  - destruct (rmap (convd s c) ds) as [es| |] eqn:E1; [|done|done]. cbn in E. destruct (convd s (S c) b) as [b'| |] eqn:E2; [|done|done]. injection E as <-. apply rmap_ok in E1. destruct L as [L Lb]. cbn.
    assert (F : rmap (convd s (c + n)) ds = Ok (map (ren (above c n)) es)). { apply rmap_ok. rewrite List.Forall_map in L. clear -IH L E1. induction E1 as [|d e ds es H1 _ IHf]; [constructor|]. inversion IH; inversion L; subst. constructor; auto. }
    rewrite F. cbn. rewrite (IHb (S c) b' Lb E2 : convd s (S (c + n)) b = _). cbn. do 2 f_equal. apply ren_ext. intros k. rewrite upr_above. f_equal. lia.
Qed.
Lemma convd_plug s x A a' : lclosed 0 A -> convd s 0 A = Ok a' -> forall d k e, lclosed k d -> convd (x :: s) k d = Ok e -> convd s k (plug leaf x A d) = Ok (inst (ups k (scons a' Var)) e).
Proof.
  intros LA EA. induction d as [i|y|l| |j ds IH|j ds b IH IHb] using (db_ind2 leaf); intros k e L E; cbn [convd lclosed plug] in *.
  - injection E as <-. cbn. unfold ups. destruct (decide _); [done|lia].
  - cbn [position] in E. destruct (decide (x = y)) as [->|N].
    + destruct (decide (y = y)); [|done]. injection E as <-. rewrite (convd_weaken s k A 0 a' LA EA : convd s k A = _). f_equal. cbn [inst]. unfold ups. destruct (decide (k + 0 < k)); [lia|]. replace (k + 0 - k) with 0 by lia. cbn [scons]. apply ren_ext. intros m. unfold above. destruct (decide (0 <= m)); lia.
    + destruct (decide (y = x)); [congruence|]. cbn. destruct (position y s) as [i|]; [|done]. injection E as <-. cbn. unfold ups. destruct (decide _); [lia|]. replace (k + S i - k) with (S i) by lia. cbn. do 2 f_equal. lia.
  - injection E as <-. done.
  - done.
  - destruct (rmap (convd (x :: s) k) ds) as [es| |] eqn:E1; [|done|done]. injection E as <-. apply rmap_ok in E1. rewrite rmap_map. cbn.
    assert (F : rmap (fun d => convd s k (plug leaf x A d)) ds = Ok (map (inst (ups k (scons a' Var))) es)); [|now rewrite F]. apply rmap_ok. rewrite List.Forall_map in L. clear -IH L E1. induction E1 as [|d e ds es H1 _ IHf]; [constructor|]. inversion IH; inversion L; subst. constructor; auto.
  - destruct (rmap (convd (x :: s) k) ds) as [es| |] eqn:E1; [|done|done]. cbn in E. destruct (convd (x :: s) (S k) b) as [b'| |] eqn:E2; [|done|done]. injection E as <-. apply rmap_ok in E1. destruct L as [L Lb]. rewrite rmap_map. cbn.
    assert (F : rmap (fun d => convd s k (plug leaf x A d)) ds = Ok (map (inst (ups k (scons a' Var))) es)). { apply rmap_ok. rewrite List.Forall_map in L. clear -IH L E1. induction E1 as [|d e ds es H1 _ IHf]; [constructor|]. inversion IH; inversion L; subst. constructor; auto. }
    rewrite F. cbn. rewrite (IHb (S k) b' Lb E2). cbn. do 2 f_equal. apply inst_ext. intros i. unfold ups at 2. destruct (decide (i < 1)); [unfold ups; destruct (decide _); [done|lia]|]. unfold ups. destruct (decide (i < S k)), (decide (i - 1 < k)); try lia; [cbn; f_equal; lia|]. rewrite ren_ren. replace (i - 1 - k) with (i - S k) by lia. apply ren_ext. intros m. lia.
Qed.
Lemma convd_inj s d : forall k e e', lclosed k d -> lclosed k e -> convd s k d = Ok e' -> convd s k e = Ok e' -> d = e.
Proof.
  induction d as [i|x|l| |j ds IH|j ds b IH IHb] using (db_ind2 leaf); intros k e e' L1 L2 E1 E2; cbn [convd lclosed] in *.
  - injection E1 as <-. destruct e as [i'|x'|l'| |j' ds'|j' ds' b']; cbn in *; try done; [congruence| | |].
    + destruct (position x' s); [|done]. injection E2. lia.
    + destruct (rmap (convd s k) ds'); done.
    + destruct (rmap (convd s k) ds'); cbn in E2; try done. destruct (convd s (S k) b'); done.
  - destruct (position x s) as [i|] eqn:P; [|done]. injection E1 as <-. destruct e as [i'|x'|l'| |j' ds'|j' ds' b']; cbn in *; try done.
    + injection E2. lia.
    + destruct (position x' s) as [i'|] eqn:P'; [|done]. injection E2 as E2. assert (i' = i) as -> by lia. f_equal. clear -P P'. revert i P P'. induction s as [|y s IH]; [done|]. cbn. intros i. destruct (decide (y = x)) as [H1|H1], (decide (y = x')) as [H2|H2]; [congruence| | |].
      * intros [= <-]. destruct (position x' s); done.
      * intros H [= <-]. destruct (position x s); done.
      * destruct (position x s) as [a|]; [|done]. destruct (position x' s) as [c|]; [|done]. cbn. intros [= <-] [= ->]. eauto.
    + destruct (rmap (convd s k) ds'); done.
    + destruct (rmap (convd s k) ds'); cbn in E2; try done. destruct (convd s (S k) b'); done.
  - injection E1 as <-. destruct e as [i'|x'|l'| |j' ds'|j' ds' b']; cbn in *; try done; [|congruence| |].
    + destruct (position x' s); done.
    + destruct (rmap (convd s k) ds'); done.
    + destruct (rmap (convd s k) ds'); cbn in E2; try done. destruct (convd s (S k) b'); done.
  - done.
  - destruct (rmap (convd s k) ds) as [es| |] eqn:R; [|done|done]. injection E1 as <-. destruct e as [i'|x'|l'| |j' ds'|j' ds' b']; cbn in *; try done.
    + destruct (position x' s); done.
    + destruct (rmap (convd s k) ds') as [es'| |] eqn:R'; [|done|done]. injection E2 as -> ->. f_equal. apply rmap_ok in R, R'. rewrite List.Forall_map in L1, L2. clear -IH L1 L2 R R'. revert ds' L2 R'. induction R as [|d e ds es H1 _ IHf]; intros ds' L2 R'; inversion R'; subst; [done|]. inversion IH; inversion L1; inversion L2; subst. f_equal; [eauto|]. apply IHf; auto.
    + destruct (rmap (convd s k) ds'); cbn in E2; try done. destruct (convd s (S k) b'); done.
  - destruct (rmap (convd s k) ds) as [es| |] eqn:R; [|done|done]. cbn in E1. destruct (convd s (S k) b) as [b1| |] eqn:B; [|done|done]. injection E1 as <-. destruct L1 as [L1 L1b]. destruct e as [i'|x'|l'| |j' ds'|j' ds' b']; cbn in *; try done.
    + destruct (position x' s); done.
    + destruct (rmap (convd s k) ds'); done.
    + destruct (rmap (convd s k) ds') as [es'| |] eqn:R'; [|done|done]. cbn in E2. destruct (convd s (S k) b') as [b2| |] eqn:B'; [|done|done]. injection E2 as -> -> ->. destruct L2 as [L2 L2b]. f_equal; [|eauto]. apply rmap_ok in R, R'. rewrite List.Forall_map in L1, L2. clear -IH L1 L2 R R'. revert ds' L2 R'. induction R as [|d e ds es H1 _ IHf]; intros ds' L2 R'; inversion R'; subst; [done|]. inversion IH; inversion L1; inversion L2; subst. f_equal; [eauto|]. apply IHf; auto.
Qed.
End Proofs.
