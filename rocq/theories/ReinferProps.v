(** C93: what the second kernel accepts is well typed, and so is what both kernels agree on. *)
From Coq Require Import List Bool Lia ZArith.
From stdpp Require Import base decidable list strings pretty.
From Verif Require Import SubstModel SubstProofs SubstProps InferModel RecheckModel RecheckProofs RecheckProps ReinferModel.

Section Props.
Notation name := string.
Variable univ : Type.
Variable usucc : univ -> univ.
Variable uimax : univ -> univ -> option univ.
Variable ueq uleq : univ -> univ -> bool.
Variable is_prop : univ -> bool.
Notation leaf := (InferModel.leaf univ).
Notation term := (term leaf).
Notation db := (RecheckModel.db leaf).
Arguments RecheckModel.Var {leaf} k. Arguments RecheckModel.Leaf {leaf} l. Arguments RecheckModel.Node {leaf} k ds. Arguments RecheckModel.Bind {leaf} k ds d. Arguments RecheckModel.Mutual {leaf} ds i. Arguments LSort {univ} u. Arguments LGlobal {univ} g.
Notation Var := RecheckModel.Var. Notation Leaf := RecheckModel.Leaf. Notation Node := RecheckModel.Node. Notation Bind := RecheckModel.Bind. Notation Mutual := RecheckModel.Mutual.
Notation Sort u := (Leaf (LSort u)). Notation Global g := (Leaf (LGlobal g)).
Notation Pi A B := (Bind BPi [A] B). Notation Lam A b := (Bind BLambda [A] b). Notation Let A v b := (Bind BLet [A; v] b). Notation App f a := (Node NApp [f; a]).
Variable globals bodies : name -> option term.
Variable limit : nat.
Notation whnf := (whnf univ bodies limit).
Notation def_eq := (def_eq univ usucc uimax ueq uleq is_prop globals bodies limit). Notation proof_irrel := (proof_irrel univ usucc uimax ueq uleq is_prop globals bodies limit).
Notation is_sub := (is_sub univ usucc uimax ueq uleq is_prop globals bodies limit). Notation infer := (infer univ usucc uimax ueq uleq is_prop globals bodies limit).
Notation infer_sort := (infer_sort univ usucc uimax ueq uleq is_prop globals bodies limit). Notation check := (check univ usucc uimax ueq uleq is_prop globals bodies limit).
Notation recheck := (recheck univ usucc uimax ueq uleq is_prop globals bodies limit). Notation double_check := (double_check univ usucc uimax ueq uleq is_prop globals bodies limit).
Notation ren := (ren leaf). Notation inst := (inst leaf). Notation scons := (scons leaf). Notation closed := (closed leaf). Notation beta_open := (beta_open leaf).
(** ** The rules *)
Notation lift n t := (ren (fun k => k + n) t).
Notation put a b := (inst (scons a Var) b).
Inductive typed : list db -> db -> db -> Prop :=
  | ty_sort G u : typed G (Sort u) (Sort (usucc u))
  | ty_var G k A : G !! k = Some A -> typed G (Var k) (lift (k + 1) A)
  | ty_global G g T d : globals g = Some T -> to_db leaf [] T = Ok d -> typed G (Global g) d
  | ty_pi G A B u v w : typed G A (Sort u) -> typed (A :: G) B (Sort v) -> uimax u v = Some w -> typed G (Pi A B) (Sort w)
  | ty_lam G A b B u : typed G A (Sort u) -> typed (A :: G) b B -> typed G (Lam A b) (Pi A B)
  | ty_app G f a A B : typed G f (Pi A B) -> typed G a A -> typed G (App f a) (put a B)
  | ty_let G A v b B u : typed G A (Sort u) -> typed G v A -> typed G (put v b) B -> typed G (Let A v b) B
  | ty_conv G t A B : typed G t A -> below G A B -> typed G t B
with conv : list db -> db -> db -> Prop :=
  | co_refl G a : conv G a a
  | co_sym G a b : conv G a b -> conv G b a
  | co_trans G a b c : conv G a b -> conv G b c -> conv G a c
  | co_beta G A b a : conv G (App (Lam A b) a) (put a b)
  | co_zeta G A v b : conv G (Let A v b) (put v b)
  | co_delta G g t d : bodies g = Some t -> to_db leaf [] t = Ok d -> conv G (Global g) d
  | co_eta G A f : conv G (Lam A (App (lift 1 f) (Var 0))) f
  | co_sort G u v : ueq u v = true -> conv G (Sort u) (Sort v)
  | co_app G f g a b : conv G f g -> conv G a b -> conv G (App f a) (App g b)
  | co_pi G A A' B B' : conv G A A' -> conv (A :: G) B B' -> conv G (Pi A B) (Pi A' B')
  | co_lam G A A' b b' : conv G A A' -> conv (A :: G) b b' -> conv G (Lam A b) (Lam A' b')
  | co_irrelevant G a b A u : typed G a A -> typed G A (Sort u) -> is_prop u = true -> typed G b A -> conv G a b
with below : list db -> db -> db -> Prop :=
  | be_conv G a b : conv G a b -> below G a b
  | be_sort G u v : uleq u v = true -> below G (Sort u) (Sort v)
  | be_pi G A A' B B' : conv G A A' -> below (A :: G) B B' -> below G (Pi A B) (Pi A' B')
  | be_trans G a b c : below G a b -> below G b c -> below G a c.

Lemma closed_db_some t d : closed_db univ t = Some d -> to_db leaf [] t = Ok d.
Proof. unfold closed_db. destruct (to_db leaf [] t); congruence. Qed.
Lemma beta_some b a r : beta_open b a = Some r -> r = put a b.
Proof. rewrite beta_inst. congruence. Qed.
(** ** Reduction *)
Lemma loop_sound w : (forall G a b, w a = Some b -> conv G a b) -> forall fuel G a b, whnf_loop univ bodies w fuel a = Some b -> conv G a b.
Proof.
  intros W. induction fuel as [|fuel IH]; intros G a b E; [injection E as <-; apply co_refl|]. cbn [whnf_loop] in E.
  destruct a as [k|[u|g]|[|] ds|k ds d|ds i]; try (injection E as <-; apply co_refl); try done.
  - destruct (bodies g) as [t|] eqn:Eg; cbn in E; [|injection E as <-; apply co_refl]. destruct (closed_db univ t) as [d|] eqn:Ed; [|injection E as <-; apply co_refl]. apply closed_db_some in Ed. eapply co_trans; [eapply co_delta; eassumption|]. now apply IH.
  - destruct ds as [|f [|a [|c ds]]]; try (injection E as <-; apply co_refl). destruct (w f) as [fw|] eqn:Ef; [|done]. cbn [mbind option_bind] in E. eapply co_trans; [apply co_app; [apply (W G), Ef|apply co_refl]|]. clear Ef.
    destruct fw as [k|l|k ds|[| | |] ds b'|ds i]; try (injection E as <-; apply co_refl); try done. destruct ds as [|A [|c ds]]; try (injection E as <-; apply co_refl).
    destruct (beta_open b' a) as [r|] eqn:Er; [|done]. cbn [mbind option_bind] in E. apply beta_some in Er as ->. eapply co_trans; [apply co_beta|]. now apply IH.
  - destruct k; try (injection E as <-; apply co_refl). destruct ds as [|A [|v [|c ds]]]; try (injection E as <-; apply co_refl). destruct (beta_open d v) as [r|] eqn:Er; [|done]. cbn [mbind option_bind] in E. apply beta_some in Er as ->. eapply co_trans; [apply co_zeta|]. now apply IH.
Qed.
Lemma whnf_sound n : forall G a b, whnf n a = Some b -> conv G a b.
Proof. induction n as [|n IH]; [done|]. intros G a b E. cbn [ReinferModel.whnf] in E. exact (loop_sound _ IH limit G a b E). Qed.
(** ** Comparison and inference *)
Definition sound (n : nat) : Prop :=
  (forall G a b, def_eq n G a b = true -> conv G a b) /\ (forall G a b, proof_irrel n G a b = true -> conv G a b) /\ (forall G a b, is_sub n G a b = true -> below G a b) /\
  (forall G t T, infer n G t = Some T -> typed G t T) /\ (forall G t u, infer_sort n G t = Some u -> typed G t (Sort u)) /\ (forall G t T, check n G t T = true -> typed G t T).
Lemma eta_sound n G A body b bx : (r ← shift leaf 1 0 b; whnf n (App r (Var 0))) = Some bx -> conv (A :: G) body bx -> conv G (Lam A body) b.
Proof.
  rewrite (shift_up1 leaf b). cbn [mbind option_bind]. intros E H. apply (whnf_sound n (A :: G)) in E. eapply co_trans; [|apply (co_eta G A b)]. apply co_lam; [apply co_refl|]. eapply co_trans; [exact H|]. now apply co_sym.
Qed.
Lemma def_eq_sound n : sound n -> forall G a b, def_eq (S n) G a b = true -> conv G a b.
Proof.
  intros (IHd & IHp & _) G a b E. cbn [ReinferModel.def_eq] in E. destruct (whnf n a) as [a1|] eqn:Ea; [|done]. destruct (whnf n b) as [b1|] eqn:Eb; [|done]. apply (whnf_sound n G) in Ea, Eb.
  enough (K : conv G a1 b1) by (eapply co_trans; [exact Ea|]; eapply co_trans; [exact K|]; now apply co_sym). clear Ea Eb a b. rename a1 into a, b1 into b.
  assert (P : proof_irrel n G a b = true -> conv G a b) by apply IHp.
  assert (O : forall x, x || proof_irrel n G a b = true -> (x = true -> conv G a b) -> conv G a b). { intros x H Hx. apply orb_true_iff in H as [H|H]; auto. }
  assert (R : forall B body, b = Lam B body -> match (r ← shift leaf 1 0 a; whnf n (App r (Var 0))) with Some ax => def_eq n (B :: G) ax body | None => false end = true -> conv G a b).
  { intros B body -> H. destruct (r ← shift leaf 1 0 a; whnf n (App r (Var 0))) as [ax|] eqn:X; [|done]. apply co_sym. eapply eta_sound; [exact X|]. apply co_sym. now apply IHd. }
  destruct a as [k|[u|g]|[|] ds|ka ds d|ds i].
  Local Ltac rhs R := match goal with
    | |- conv _ _ (Bind BLambda [?A] ?d) => now apply (R A d) end.
  - destruct b as [k'|[u'|g']|kb ds'|kb ds' d'|ds' i']; try (now apply P).
    + apply (O _ E). intros H. apply bool_decide_eq_true in H as ->. apply co_refl.
    + destruct kb; try (now apply P). destruct ds' as [|B [|c ds']]; try (now apply P). now apply (R B d').
  - destruct b as [k'|[u'|g']|kb ds'|kb ds' d'|ds' i']; try (now apply P).
    + apply (O _ E). intros H. now apply co_sort.
    + destruct kb; try (now apply P). destruct ds' as [|B [|c ds']]; try (now apply P). now apply (R B d').
  - destruct b as [k'|[u'|g']|kb ds'|kb ds' d'|ds' i']; try (now apply P).
    + apply (O _ E). intros H. apply bool_decide_eq_true in H as ->. apply co_refl.
    + destruct kb; try (now apply P). destruct ds' as [|B [|c ds']]; try (now apply P). now apply (R B d').
  - destruct ds as [|f [|x [|c ds]]].
    1,2,4: destruct b as [k'|[u'|g']|kb ds'|kb ds' d'|ds' i']; try (now apply P); destruct kb; try (now apply P); destruct ds' as [|B [|c' ds']]; try (now apply P); now apply (R B d').
    destruct b as [k'|[u'|g']|kb ds'|kb ds' d'|ds' i']; try (now apply P).
    + destruct kb; try (now apply P). destruct ds' as [|g [|y [|c ds']]]; try (now apply P). apply (O _ E). intros H. apply andb_true_iff in H as [H1 H2]. apply co_app; now apply IHd.
    + destruct kb; try (now apply P). destruct ds' as [|B [|c ds']]; try (now apply P). now apply (R B d').
  - destruct b as [k'|[u'|g']|kb ds'|kb ds' d'|ds' i']; try (now apply P). destruct kb; try (now apply P). destruct ds' as [|B [|c ds']]; try (now apply P). now apply (R B d').
  - destruct ka.
    + destruct ds as [|A [|c ds]].
      1,3: destruct b as [k'|[u'|g']|kb ds'|kb ds' d'|ds' i']; try (now apply P); destruct kb; try (now apply P); destruct ds' as [|B [|c' ds']]; try (now apply P); now apply (R B d').
      destruct b as [k'|[u'|g']|kb ds'|kb ds' d'|ds' i']; try (now apply P). destruct kb; try (now apply P); destruct ds' as [|B [|c' ds']]; try (now apply P); [|now apply (R B d')]. apply (O _ E). intros H. apply andb_true_iff in H as [H1 H2]. apply co_pi; now apply IHd.
    + destruct ds as [|A [|c ds]].
      1,3: destruct b as [k'|[u'|g']|kb ds'|kb ds' d'|ds' i']; try (now apply P); destruct kb; try (now apply P); destruct ds' as [|B [|c' ds']]; try (now apply P); now apply (R B d').
      destruct (is_lam univ b) eqn:Lb.
      * destruct b as [k'|[u'|g']|kb ds'|kb ds' d'|ds' i']; try done. destruct kb; try done. destruct ds' as [|B [|c ds']]; try done. apply (O _ E). intros H. apply andb_true_iff in H as [H1 H2]. apply co_lam; now apply IHd.
      * destruct (r ← shift leaf 1 0 b; whnf n (App r (Var 0))) as [bx|] eqn:X; [|done]. eapply eta_sound; [exact X|]. now apply IHd.
    + destruct b as [k'|[u'|g']|kb ds'|kb ds' d'|ds' i']; try (now apply P). destruct kb; try (now apply P); destruct ds' as [|B [|c' ds']]; try (now apply P). now apply (R B d').
    + destruct b as [k'|[u'|g']|kb ds'|kb ds' d'|ds' i']; try (now apply P). destruct kb; try (now apply P); destruct ds' as [|B [|c' ds']]; try (now apply P). now apply (R B d').
  - destruct b as [k'|[u'|g']|kb ds'|kb ds' d'|ds' i']; try (now apply P). destruct kb; try (now apply P). destruct ds' as [|B [|c ds']]; try (now apply P). now apply (R B d').
Qed.
Lemma proof_irrel_S n G (a b : db) : proof_irrel (S n) G a b =
  match infer n G a with
    | Some ta =>
        match (s ← infer n G ta; whnf n s) with
        | Some (Sort u) => if is_prop u then match infer n G b with Some tb => def_eq n G ta tb | None => false end else false
        | _ => false
        end
    | None => false
    end.
Proof. reflexivity. Qed.
Lemma is_sub_S n G (a b : db) : is_sub (S n) G a b =
  match whnf n a, whnf n b with
    | Some (Sort u), Some (Sort v) => uleq u v
    | Some (Pi A B), Some (Pi A' B') => def_eq n G A A' && is_sub n (A :: G) B B'
    | Some a, Some b => def_eq n G a b
    | _, _ => false
    end.
Proof. reflexivity. Qed.
Lemma infer_S n G (t : db) : infer (S n) G t =
  match t with
    | Sort u => Some (Sort (usucc u))
    | Var k => var_type univ G k
    | Global g => T ← globals g; closed_db univ T
    | Pi A B => u ← infer_sort n G A; v ← infer_sort n (A :: G) B; w ← uimax u v; Some (Sort w)
    | Lam A b => _ ← infer_sort n G A; B ← infer n (A :: G) b; Some (Pi A B)
    | App f a => F ← infer n G f; F ← whnf n F; match F with Pi A B => if check n G a A then beta_open B a else None | _ => None end
    | Let A v b => _ ← infer_sort n G A; if check n G v A then r ← beta_open b v; infer n G r else None
    | _ => None
    end.
Proof. reflexivity. Qed.
Lemma infer_sort_S n G (t : db) : infer_sort (S n) G t =
  T ← infer n G t; T ← whnf n T; match T with Sort u => Some u | _ => None end.
Proof. reflexivity. Qed.
Lemma check_S n G (t expected : db) : check (S n) G t expected =
  match infer n G t with Some T => is_sub n G T expected | None => false end.
Proof. reflexivity. Qed.
Lemma all_sound n : sound n.
Proof.
  induction n as [|n IH]; [repeat split; done|]. pose proof IH as (IHd & IHp & IHs & IHi & IHo & IHc). split; [now apply def_eq_sound|]. split; [|split; [|split; [|split]]].
  - intros G a b E. rewrite proof_irrel_S in E. destruct (infer n G a) as [ta|] eqn:Ea; [|done]. destruct (infer n G ta) as [s|] eqn:Es; [|done]. cbn [mbind option_bind] in E. destruct (whnf n s) as [s'|] eqn:Ew; [|done]. destruct s' as [k|[u|g]|k ds|k ds d|ds i]; try done. destruct (is_prop u) eqn:Eu; [|done]. destruct (infer n G b) as [tb|] eqn:Eb; [|done].
    apply IHi in Ea, Es, Eb. apply IHd in E. apply (whnf_sound n G) in Ew. eapply (co_irrelevant G a b ta u); [done| |done|].
    + eapply ty_conv; [exact Es|]. now apply be_conv.
    + eapply ty_conv; [exact Eb|]. now apply be_conv, co_sym.
  - intros G a b E. rewrite is_sub_S in E. destruct (whnf n a) as [a1|] eqn:Ea; [|done]. destruct (whnf n b) as [b1|] eqn:Eb; [|destruct a1 as [k|[u|g]|k ds|[| | |] [|A [|c ds]] d|ds i]; done]. apply (whnf_sound n G) in Ea, Eb.
    enough (K : below G a1 b1) by (eapply be_trans; [apply be_conv, Ea|]; eapply be_trans; [exact K|]; now apply be_conv, co_sym). clear Ea Eb.
    assert (D : def_eq n G a1 b1 = true -> below G a1 b1) by (intros H; now apply be_conv, IHd).
    destruct a1 as [k|[u|g]|k ds|[| | |] [|A [|c ds]] d|ds i]; try (now apply D).
    + destruct b1 as [k'|[u'|g']|k' ds'|k' ds' d'|ds' i']; try (now apply D). now apply be_sort.
    + destruct b1 as [k'|[u'|g']|k' ds'|[| | |] [|A' [|c' ds']] d'|ds' i']; try (now apply D). apply andb_true_iff in E as [E1 E2]. apply be_pi; auto.
  - intros G t T E. rewrite infer_S in E. destruct t as [k|[u|g]|[|] ds|k ds d|ds i]; try done.
    + unfold var_type in E. destruct (G !! k) as [A|] eqn:EA; [|done]. cbn [mbind option_bind] in E. rewrite (shift_up0 leaf (k + 1) A) in E. injection E as <-. now apply ty_var.
    + injection E as <-. apply ty_sort.
    + destruct (globals g) as [t|] eqn:Eg; [|done]. cbn [mbind option_bind] in E. apply closed_db_some in E. eapply ty_global; eassumption.
    + destruct ds as [|f [|a [|c ds]]]; try done. destruct (infer n G f) as [F|] eqn:Ef; [|done]. cbn [mbind option_bind] in E. destruct (whnf n F) as [F'|] eqn:EF; [|done]. cbn [mbind option_bind] in E. destruct F' as [k|l|k ds|[| | |] [|A [|c ds]] B|ds i]; try done. destruct (check n G a A) eqn:Ec; [|done]. apply beta_some in E as ->. apply IHi in Ef. apply IHc in Ec. apply (whnf_sound n G) in EF. eapply ty_app; [|exact Ec]. eapply ty_conv; [exact Ef|]. now apply be_conv.
    + destruct k; destruct ds as [|A [|v [|c ds]]]; try done.
      * destruct (infer_sort n G A) as [u|] eqn:EA; [|done]. cbn [mbind option_bind] in E. destruct (infer_sort n (A :: G) d) as [v|] eqn:EB; [|done]. cbn [mbind option_bind] in E. destruct (uimax u v) as [w|] eqn:Ew; [|done]. injection E as <-. eapply ty_pi; eauto.
      * destruct (infer_sort n G A) as [u|] eqn:EA; [|done]. cbn [mbind option_bind] in E. destruct (infer n (A :: G) d) as [B|] eqn:EB; [|done]. injection E as <-. eapply ty_lam; eauto.
      * destruct (infer_sort n G A) as [u|] eqn:EA; [|done]. cbn [mbind option_bind] in E. destruct (check n G v A) eqn:Ec; [|done]. destruct (beta_open d v) as [r|] eqn:Er; [|done]. cbn [mbind option_bind] in E. apply beta_some in Er as ->. eapply ty_let; eauto.
  - intros G t u E. rewrite infer_sort_S in E. destruct (infer n G t) as [T|] eqn:Et; [|done]. cbn [mbind option_bind] in E. destruct (whnf n T) as [T'|] eqn:ET; [|done]. cbn [mbind option_bind] in E. destruct T' as [k|[v|g]|k ds|k ds d|ds i]; try done. injection E as <-. apply (whnf_sound n G) in ET. eapply ty_conv; [apply IHi; exact Et|]. now apply be_conv.
  - intros G t T E. rewrite check_S in E. destruct (infer n G t) as [T'|] eqn:Et; [|done]. eapply ty_conv; [apply IHi; exact Et|]. now apply IHs.
Qed.
Lemma infer_typed n G t T : infer n G t = Some T -> typed G t T.
Proof. destruct (all_sound n) as (_ & _ & _ & H & _). apply H. Qed.
Lemma def_eq_conv n G a b : def_eq n G a b = true -> conv G a b.
Proof. destruct (all_sound n) as (H & _). apply H. Qed.
(** ** Scopes *)
Lemma closed_more d : forall c c', c <= c' -> closed c d = true -> closed c' d = true.
Proof.
  induction d as [k|l|k ds IH|k ds d IH IHd|ds i IH] using (ddb_ind2 leaf); intros c c' L C; cbn [RecheckProofs.closed] in *; try done.
  - apply bool_decide_eq_true in C. apply bool_decide_eq_true. lia.
  - rewrite List.Forall_forall in IH. rewrite forallb_forall in *. eauto.
  - apply andb_true_iff in C as [C1 C2]. rewrite (IHd (S c) (S c')) by (done || lia). rewrite andb_true_r. rewrite List.Forall_forall in IH. rewrite forallb_forall in *. eauto.
  - rewrite List.Forall_forall in IH. rewrite forallb_forall in *. intros x Hx. apply (IH x Hx (c + length ds)); [lia|auto].
Qed.
Lemma closed_ren d : forall c c' f, (forall k, k < c -> f k < c') -> closed c d = true -> closed c' (ren f d) = true.
Proof.
  assert (U : forall n c c' f, (forall k, k < c -> f k < c') -> forall k, k < c + n -> upr n f k < c' + n). { intros n c c' f H k L. unfold upr. destruct (decide (k < n)); [lia|]. specialize (H (k - n) ltac:(lia)). lia. }
  induction d as [k|l|k ds IH|k ds d IH IHd|ds i IH] using (ddb_ind2 leaf); intros c c' f H C; cbn [RecheckProofs.closed RecheckProofs.ren] in *; try done.
  - apply bool_decide_eq_true in C. apply bool_decide_eq_true. auto.
  - rewrite List.Forall_forall in IH. rewrite forallb_map. rewrite forallb_forall in *. eauto.
  - apply andb_true_iff in C as [C1 C2]. rewrite (IHd (S c) (S c')), andb_true_r; [|intros k' L; specialize (U 1 c c' f H k'); lia|done]. rewrite List.Forall_forall in IH. rewrite forallb_map. rewrite forallb_forall in *. eauto.
  - rewrite List.Forall_forall in IH. rewrite map_length, forallb_map. rewrite forallb_forall in *. intros x Hx. apply (IH x Hx (c + length ds)); [now apply U|auto].
Qed.
Lemma closed_inst d : forall c c' f, (forall k, k < c -> closed c' (f k) = true) -> closed c d = true -> closed c' (inst f d) = true.
Proof.
  assert (U : forall n c c' f, (forall k, k < c -> closed c' (f k) = true) -> forall k, k < c + n -> closed (c' + n) (ups leaf n f k) = true). { intros n c c' f H k L. unfold ups. destruct (decide (k < n)); [cbn; apply bool_decide_eq_true; lia|]. apply (closed_ren _ c'); [intros; lia|]. apply H. lia. }
  induction d as [k|l|k ds IH|k ds d IH IHd|ds i IH] using (ddb_ind2 leaf); intros c c' f H C; cbn [RecheckProofs.closed RecheckProofs.inst] in *; try done.
  - apply bool_decide_eq_true in C. auto.
  - rewrite List.Forall_forall in IH. rewrite forallb_map. rewrite forallb_forall in *. eauto.
  - apply andb_true_iff in C as [C1 C2]. rewrite (IHd (S c) (S c')), andb_true_r; [|intros k' L; rewrite <- Nat.add_1_r; apply (U 1 c c' f H k'); lia|done]. rewrite List.Forall_forall in IH. rewrite forallb_map. rewrite forallb_forall in *. eauto.
  - rewrite List.Forall_forall in IH. rewrite map_length, forallb_map. rewrite forallb_forall in *. intros x Hx. apply (IH x Hx (c + length ds)); [now apply U|auto].
Qed.
Lemma closed_put c a b : closed c a = true -> closed (S c) b = true -> closed c (put a b) = true.
Proof. intros Ha Hb. apply (closed_inst b (S c)); [|done]. intros [|k] L; cbn; [done|]. apply bool_decide_eq_true. lia. Qed.
Lemma to_db_closed t : forall s d, to_db leaf s t = Ok d -> closed (length s) d = true.
Proof.
  assert (L : forall ts s ds, List.Forall (fun t => forall s d, to_db leaf s t = Ok d -> closed (length s) d = true) ts -> rmap (to_db leaf s) ts = Ok ds -> forallb (closed (length s)) ds = true).
  { intros ts s ds F E. apply rmap_ok in E. induction E as [|x d ts ds Hx _ IH]; [done|]. inversion F; subst. cbn. rewrite IH, andb_true_r by done. eauto. }
  induction t as [x|l| |k ts IH|k ts x b IH IHb] using (term_ind2 leaf); intros s d E; cbn [to_db] in E.
  - destruct (position x s) as [i|] eqn:P; [|done]. injection E as <-. cbn. apply bool_decide_eq_true. rewrite position_index in P. now apply index_lt in P.
  - injection E as <-. done.
  - done.
  - destruct (rmap (to_db leaf s) ts) as [ds| |] eqn:Es; try done. injection E as <-. cbn. eauto.
  - destruct (rmap (to_db leaf s) ts) as [ds| |] eqn:Es; try done. cbn in E. destruct (to_db leaf (x :: s) b) as [b'| |] eqn:Eb; try done. injection E as <-. cbn. rewrite (L ts s ds IH Es). exact (IHb (x :: s) b' Eb).
Qed.
Lemma closed_db_closed c t d : closed_db univ t = Some d -> closed c d = true.
Proof. intros E. apply closed_db_some, to_db_closed in E. apply (closed_more d 0); [lia|done]. Qed.
Lemma closed_app c f a : closed c f = true -> closed c a = true -> closed c (App f a) = true.
Proof. intros H1 H2. cbn [RecheckProofs.closed forallb]. now rewrite H1, H2. Qed.
Lemma loop_closed w : (forall c a b, w a = Some b -> closed c a = true -> closed c b = true) -> forall fuel c a b, whnf_loop univ bodies w fuel a = Some b -> closed c a = true -> closed c b = true.
Proof.
  intros W. induction fuel as [|fuel IH]; intros c a b E C; [injection E as <-; done|]. cbn [whnf_loop] in E.
  destruct a as [k|[u|g]|[|] ds|k ds d|ds i]; try (injection E as <-; done); try done.
  - destruct (bodies g) as [t|] eqn:Eg; cbn in E; [|injection E as <-; done]. destruct (closed_db univ t) as [d|] eqn:Ed; [|injection E as <-; done]. apply (IH c d b E). eapply closed_db_closed; eassumption.
  - destruct ds as [|f [|a [|x ds]]]; try (injection E as <-; done). destruct (w f) as [fw|] eqn:Ef; [|done]. cbn [mbind option_bind] in E. cbn in C. rewrite andb_true_r in C. apply andb_true_iff in C as [C1 C2]. apply (W c) in Ef; [|done].
    destruct fw as [k|l|k ds|[| | |] ds b'|ds i]; try (injection E as <-; now apply closed_app); try done. destruct ds as [|A [|x ds]]; try (injection E as <-; now apply closed_app).
    destruct (beta_open b' a) as [r|] eqn:Er; [|done]. cbn [mbind option_bind] in E. apply beta_some in Er as ->. apply (IH c _ b E). cbn in Ef. apply andb_true_iff in Ef as [_ Ef]. now apply closed_put.
  - destruct k; try (injection E as <-; done). destruct ds as [|A [|v [|x ds]]]; try (injection E as <-; done). destruct (beta_open d v) as [r|] eqn:Er; [|done]. cbn [mbind option_bind] in E. apply beta_some in Er as ->. apply (IH c _ b E). cbn in C. rewrite andb_true_r in C. apply andb_true_iff in C as [C1 C2]. apply andb_true_iff in C1 as [_ C1]. now apply closed_put.
Qed.
Lemma whnf_closed n : forall c a b, whnf n a = Some b -> closed c a = true -> closed c b = true.
Proof. induction n as [|n IH]; [done|]. intros c a b E. cbn [ReinferModel.whnf] in E. exact (loop_closed _ IH limit c a b E). Qed.
Definition scoped (G : list db) : Prop := forall k A, G !! k = Some A -> closed (length G - S k) A = true.
Lemma scoped_cons G A : scoped G -> closed (length G) A = true -> scoped (A :: G).
Proof. intros S C [|k] B E; cbn in *; [injection E as <-; now rewrite Nat.sub_0_r|]. now apply S. Qed.
Lemma infer_closed n : forall G t T, scoped G -> closed (length G) t = true -> infer n G t = Some T -> closed (length G) T = true.
Proof.
  induction n as [|n IH]; [done|]. intros G t T S C E. rewrite infer_S in E. destruct t as [k|[u|g]|[|] ds|k ds d|ds i]; try done.
  - unfold var_type in E. destruct (G !! k) as [A|] eqn:EA; [|done]. cbn [mbind option_bind] in E. rewrite (shift_up0 leaf (k + 1) A) in E. injection E as <-. pose proof (lookup_lt_Some _ _ _ EA). apply (closed_ren _ (length G - Datatypes.S k)); [intros; lia|]. now apply S.
  - injection E as <-. done.
  - destruct (globals g) as [t|]; [|done]. cbn [mbind option_bind] in E. eapply closed_db_closed; eassumption.
  - destruct ds as [|f [|a [|c ds]]]; try done. destruct (infer n G f) as [F|] eqn:Ef; [|done]. cbn [mbind option_bind] in E. destruct (whnf n F) as [F'|] eqn:EF; [|done]. cbn [mbind option_bind] in E. cbn in C. rewrite andb_true_r in C. apply andb_true_iff in C as [C1 C2].
    apply IH in Ef; [|done|done]. apply (whnf_closed n _ _ _ EF) in Ef. destruct F' as [k|l|k ds|[| | |] [|A [|c ds]] B|ds i]; try done. destruct (check n G a A); [|done]. apply beta_some in E as ->. cbn in Ef. apply andb_true_iff in Ef as [_ Ef]. now apply closed_put.
  - cbn in C. apply andb_true_iff in C as [C1 C2]. destruct k; destruct ds as [|A [|v [|c ds]]]; try done; cbn in C1; rewrite andb_true_r in C1.
    + destruct (infer_sort n G A) as [u|]; [|done]. cbn [mbind option_bind] in E. destruct (infer_sort n (A :: G) d) as [v|]; [|done]. cbn [mbind option_bind] in E. destruct (uimax u v) as [w|]; [|done]. injection E as <-. done.
    + destruct (infer_sort n G A) as [u|]; [|done]. cbn [mbind option_bind] in E. destruct (infer n (A :: G) d) as [B|] eqn:EB; [|done]. injection E as <-. apply IH in EB; [|now apply scoped_cons|done]. cbn in *. now rewrite C1, EB.
    + destruct (infer_sort n G A) as [u|]; [|done]. cbn [mbind option_bind] in E. destruct (check n G v A); [|done]. destruct (beta_open d v) as [r|] eqn:Er; [|done]. cbn [mbind option_bind] in E. apply beta_some in Er as ->. apply andb_true_iff in C1 as [_ C1]. refine (IH G (put v d) T S _ E). now apply closed_put.
Qed.
(** ** Printing and reading back *)
Fixpoint printed (ks : list binder) : list name := match ks with [] => [] | k :: ks => binder_name k (length ks) :: printed ks end.
Lemma printed_position ks : forall k j, k < length ks -> position ("v" +:+ pretty (length ks - 1 - k)) (printed ks) = Some j -> j = k.
Proof.
  induction ks as [|b ks IH]; intros k j L; cbn [length printed position] in *; [lia|]. destruct (decide _) as [E|N].
  - intros [= <-]. unfold binder_name in E. destruct b; cbn in E; try discriminate; injection E as E; apply (inj pretty) in E; lia.
  - destruct k as [|k].
    + replace (S (length ks) - 1 - 0) with (length ks) in * by lia. destruct (position _ (printed ks)) as [i|] eqn:P; [|done]. exfalso. clear -P. assert (K : forall n, length ks <= n -> position ("v" +:+ pretty n) (printed ks) = None); [|now rewrite K in P]. clear P i. induction ks as [|b ks IH]; intros n L; [done|]. cbn [printed position]. cbn in L. destruct (decide _) as [E|_]; [unfold binder_name in E; destruct b; cbn in E; try discriminate; injection E as E; apply (inj pretty) in E; lia|]. rewrite IH by lia. done.
    + replace (S (length ks) - 1 - S k) with (length ks - 1 - k) in * by lia. destruct (position _ (printed ks)) as [i|] eqn:P; [|done]. cbn. intros [= <-]. f_equal. apply (IH k i); [lia|done].
Qed.
Lemma print_read d : forall ks t r, closed (length ks) d = true -> from_db leaf d (length ks) = Some t -> to_db leaf (printed ks) t = Ok r -> r = d.
Proof.
  assert (L : forall ds ks ts rs, List.Forall (fun d => forall ks t r, closed (length ks) d = true -> from_db leaf d (length ks) = Some t -> to_db leaf (printed ks) t = Ok r -> r = d) ds ->
     forallb (closed (length ks)) ds = true -> mapM (fun d => from_db leaf d (length ks)) ds = Some ts -> rmap (to_db leaf (printed ks)) ts = Ok rs -> rs = ds).
  { intros ds ks ts rs F. revert ts rs. induction F as [|e ds Hd _ IH]; intros ts rs C E R; cbn in C, E; [injection E as <-; cbn in R; congruence|]. apply andb_true_iff in C as [C1 C2]. destruct (from_db leaf e (length ks)) as [t|] eqn:Et; [|done]. cbn in E. destruct (mapM _ ds) as [ts'|] eqn:Ets; [|done]. injection E as <-. cbn in R. destruct (to_db leaf (printed ks) t) as [r| |] eqn:Er; try done. cbn in R. destruct (rmap (to_db leaf (printed ks)) ts') as [rs'| |] eqn:Ers; try done. injection R as <-. f_equal; [eauto|]. now apply (IH ts'). }
  induction d as [k|l|k ds IH|k ds d IH IHd|ds i IH] using (ddb_ind2 leaf); intros ks t r C E R; cbn [from_db RecheckProofs.closed] in *.
  - injection E as <-. cbn [to_db] in R. apply bool_decide_eq_true in C. destruct (position _ _) as [j|] eqn:P; [|done]. injection R as <-. f_equal. now apply (printed_position ks k j).
  - injection E as <-. cbn in R. congruence.
  - destruct (mapM (fun d => from_db leaf d (length ks)) ds) as [ts|] eqn:Ets; [|done]. injection E as <-. cbn [to_db] in R. destruct (rmap (to_db leaf (printed ks)) ts) as [rs| |] eqn:Ers; try done. injection R as <-. f_equal. now apply (L ds ks ts).
  - apply andb_true_iff in C as [C1 C2]. destruct (mapM (fun d => from_db leaf d (length ks)) ds) as [ts|] eqn:Ets; [|done]. cbn [mbind option_bind] in E. destruct (from_db leaf d (S (length ks))) as [b|] eqn:Eb; [|done]. injection E as <-. cbn [to_db] in R. destruct (rmap (to_db leaf (printed ks)) ts) as [rs| |] eqn:Ers; try done. cbn [rbind] in R. destruct (to_db leaf (binder_name k (length ks) :: printed ks) b) as [b'| |] eqn:Eb'; try done. injection R as <-. f_equal; [now apply (L ds ks ts)|]. now apply (IHd (k :: ks) b b').
  - done.
Qed.
(** ** The property *)
(** What the second kernel accepts has the type it finds, by the usual rules and whatever the names of its variables. Missing: match, fixpoints, literals, constants at levels and structure η. *)
Theorem C93_sound_partial n t R : recheck n t = Ok R -> exists d T, to_db leaf [] t = Ok d /\ typed [] d T /\ closed 0 T = true /\ from_db leaf T 0 = Some R.
Proof.
  unfold ReinferModel.recheck. destruct (to_db leaf [] t) as [d| |] eqn:Ed; try done. cbn [rbind]. destruct (infer n [] d) as [T|] eqn:ET; [|done]. cbn [mbind option_bind]. destruct (from_db leaf T 0) as [R'|] eqn:ER; [|done]. intros [= <-]. exists d, T. split; [done|]. split; [now apply (infer_typed n)|]. split; [|done]. apply (infer_closed n [] d T); [intros k A E; done|now apply (to_db_closed t [])|done].
Qed.
(** If the first kernel finds a type and the check reports agreement, the term has that type, whatever the first kernel does. *)
Theorem C93_agreed_partial n t X : double_check n (Some X) t = Agreed -> exists d x, to_db leaf [] t = Ok d /\ to_db leaf [] X = Ok x /\ typed [] d x.
Proof.
  unfold ReinferModel.double_check. destruct (recheck n t) as [R| |] eqn:ER; try done. destruct (to_db leaf [] X) as [x| |] eqn:Ex; try done. destruct (to_db leaf [] R) as [r| |] eqn:Er; try done. destruct (def_eq n [] x r) eqn:E; [|done]. intros _. destruct (C93_sound_partial n t R ER) as (d & T & Ed & HT & CT & FT). exists d, x. split; [done|]. split; [done|].
  assert (r = T) as -> by (now apply (print_read T [] R r)). eapply ty_conv; [exact HT|]. apply be_conv, co_sym. now apply (def_eq_conv n).
Qed.
End Props.

(** ** The kernels' own universes *)
From Verif Require Import UnivModel InferProps.
Definition uprop (u : universe) : bool := match u with SPrp | Prp => true | _ => false end.
Definition ule (u v : universe) : bool := bool_decide (level_leq 20 u v = Some true).
Local Notation T := (SubstModel.term (InferModel.leaf universe)).
Local Notation var x := (TVar (InferModel.leaf universe) x). Local Notation PROP := (TLeaf (InferModel.leaf universe) (LSort universe Prp)).
Local Notation pi x a b := (TBind (InferModel.leaf universe) BPi [a] x b). Local Notation lam x a b := (TBind (InferModel.leaf universe) BLambda [a] x b). Local Notation app f a := (TNode (InferModel.leaf universe) NApp [f; a]).
Local Open Scope string_scope.
Definition second (g b : string -> option T) (limit : nat) := ReinferModel.recheck universe succ (imax 20) InferProps.ueq ule uprop g b limit.
Definition both (g b : string -> option T) (limit : nat) := ReinferModel.double_check universe succ (imax 20) InferProps.ueq ule uprop g b limit.
(** The term that the first kernel gives a false type (C91_capture_refuted) and the proof it takes for one of [forall A, A] (C91_false_refuted): the second kernel finds the right types, and the kernels disagree. *)
Theorem C93_catches : forall g b l nz slow, let t := lam "A" PROP (lam "h" (var "A") (lam "A" PROP (var "h"))) in let u := app (app t (pi "P" PROP (pi "p" (var "P") (var "P")))) (lam "P" PROP (lam "p" (var "P") (var "p"))) in
  exists X Y, (exists n0, forall n, n0 <= n -> kernel_infer g nz slow n [] t = Some X /\ kernel_infer g nz slow n [] u = Some Y) /\ ~ says [] (nameless _ [] X) /\ ~ says [] (nameless _ [] Y) /\
  (exists n0, forall n, n0 <= n -> second g b (S l) n t = Ok (pi "v0" PROP (pi "v1" (var "v0") (pi "v2" PROP (var "v0")))) /\ both g b (S l) n (Some X) t = Disagree /\ both g b (S l) n (Some Y) u = Disagree).
Proof.
  intros g b l nz slow t u. exists (pi "A" PROP (pi "h" (var "A") (pi "A" PROP (var "A")))), (pi "A" PROP (var "A")). split; [|split; [|split]].
  - exists 20. intros n Hn. do 20 (destruct n as [|n]; [exfalso; lia|]). split; vm_compute; reflexivity.
  - intros H. cbn in H. exact (H True I False).
  - intros H. cbn in H. exact (H False).
  - exists 20. intros n Hn. do 20 (destruct n as [|n]; [exfalso; lia|]). split; [vm_compute; reflexivity|]. split; vm_compute; reflexivity.
Qed.
(** The verdict Agreed is documented as both kernels accepting; it is also given when both reject. *)
Theorem C93_reject_refuted : forall g b l, exists t, (forall n nz slow, kernel_infer g nz slow n [] t = None) /\ (forall n, second g b l n t = Ill) /\ forall n, both g b l n None t = Agreed.
Proof. intros g b l. exists (var "x"). split; [intros [|n] nz slow; reflexivity|]. split; reflexivity. Qed.
(** A term with a let, a redex in a type and a repeated name, on which the kernels agree. *)
Example C93_agreed_ex : let t := lam "x" PROP (lam "y" (app (lam "x" PROP (var "x")) (var "x")) (TBind (InferModel.leaf universe) BLet [var "x"; var "y"] "x" (var "x"))) in
  both (fun _ => None) (fun _ => None) 10 20 (Some (pi "a" PROP (pi "b" (var "a") (var "a")))) t = Agreed.
Proof. vm_compute. reflexivity. Qed.
