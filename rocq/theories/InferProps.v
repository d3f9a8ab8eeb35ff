(** C91: type inference finds types of the calculus of constructions, as long as no binder hides a name in scope. *)
From Coq Require Import List Bool Lia PeanoNat.
From stdpp Require Import base decidable list strings.
From Verif Require Import SubstModel SubstProofs SubstProps UnivModel InferModel.

Section Props.
Notation name := string.
Variable univ : Type.
Variable usucc : univ -> univ.
Variable uimax : univ -> univ -> option univ.
Notation leaf := (leaf univ).
Notation term := (term leaf).
Notation db := (db leaf).
Variable globals : name -> option term.
Variable normalize : list (name * term) -> term -> option term.
Variable subtype : nat -> list (name * term) -> term -> term -> option bool.
Notation infer := (infer univ usucc uimax globals normalize subtype). Notation check := (check univ usucc uimax globals normalize subtype).
Notation nameless := (nameless leaf). Notation occurs_free := (occurs_free leaf). Notation hole_free := (hole_free leaf). Notation let_free := (let_free leaf). Notation fresh_binders := (fresh_binders leaf).
Notation free_in := (free_in leaf). Notation open := (open leaf). Notation plug := (plug leaf).
Notation DSort u := (DLeaf leaf (LSort univ u)).

(** ** The rules of typing, on terms without bound names *)
(** Putting a term in the place of the variable bound k binders out. *)
Fixpoint inst (k : nat) (r d : db) : db :=
  match d with DIdx _ i => if decide (i = k) then r else DIdx leaf i | DFree _ y => DFree leaf y | DLeaf _ l => DLeaf leaf l | DHole _ => DHole leaf | DNode _ j ds => DNode leaf j (map (inst k r) ds) | DBind _ j ds b => DBind leaf j (map (inst k r) ds) (inst (S k) r b) end.
(** Conversion and cumulativity. *)
Variable leq : list (name * db) -> db -> db -> Prop.
Inductive typed : list (name * db) -> db -> db -> Prop :=
  | ty_sort G u : typed G (DSort u) (DSort (usucc u))
  | ty_var G x A : In (x, A) G -> typed G (DFree leaf x) A
  | ty_global G g T : globals g = Some T -> typed G (DLeaf leaf (LGlobal univ g)) (nameless [] T)
  | ty_pi G A B x u v w : typed G A (DSort u) -> x ∉ map fst G -> ~ free_in x B -> typed ((x, A) :: G) (open 0 x B) (DSort v) -> uimax u v = Some w -> typed G (DBind leaf BPi [A] B) (DSort w)
  | ty_lam G A b B x u : typed G A (DSort u) -> x ∉ map fst G -> ~ free_in x b -> ~ free_in x B -> typed ((x, A) :: G) (open 0 x b) (open 0 x B) -> typed G (DBind leaf BLambda [A] b) (DBind leaf BPi [A] B)
  | ty_app G f a A B : typed G f (DBind leaf BPi [A] B) -> typed G a A -> typed G (DNode leaf NApp [f; a]) (inst 0 a B)
  | ty_conv G t A B : typed G t A -> leq G A B -> typed G t B.

Definition forget (G : list (name * term)) : list (name * db) := map (fun '(x, A) => (x, nameless [] A)) G.
Definition scoped (G : list (name * term)) (t : term) : Prop := forall z, occurs_free t z = true -> z ∈ map fst G.
Definition fine (G : list (name * term)) (t : term) : Prop := scoped G t /\ hole_free t = true.
Definition context_ok (G : list (name * term)) : Prop := Forall (fun '(_, A) => fine G A) G.
(** Holes, lets and the placeholder for the type of a binder do not occur. *)
Fixpoint no_placeholder (t : term) : bool :=
  match t with TVar _ _ | THole _ => true | TLeaf _ l => match l with LGlobal _ g => negb (bool_decide (g = "_")) | _ => true end | TNode _ _ ts => forallb no_placeholder ts | TBind _ _ ts _ b => forallb no_placeholder ts && no_placeholder b end.
Definition plain (t : term) : Prop := hole_free t = true /\ let_free t = true /\ no_placeholder t = true.

Hypothesis globals_ok : forall g T, globals g = Some T -> fine [] T.
Hypothesis normalize_ok : forall G F F', context_ok G -> fine G F -> normalize G F = Some F' -> fine G F' /\ leq (forget G) (nameless [] F) (nameless [] F').
Hypothesis subtype_ok : forall n G a b, context_ok G -> fine G a -> fine G b -> subtype n G a b = Some true -> leq (forget G) (nameless [] a) (nameless [] b).

Lemma inst_plug R x t : forall s, inst (length s) R (nameless (s ++ [x]) t) = plug x R (nameless s t).
Proof.
  induction t as [z|l| |k ts IH|k ts z b IH IHb] using (term_ind2 leaf); intros s; try done; cbn [SubstProofs.nameless].
  - rewrite index_app. destruct (index z s) as [i|] eqn:E; [apply index_lt in E; cbn; destruct (decide (i = length s)); [lia|done]|]. cbn. destruct (decide (x = z)) as [->|N]; cbn; [destruct (decide (length s + 0 = length s)); [|lia]; destruct (decide (z = z)); done|]. destruct (decide (z = x)); [congruence|done].
  - cbn. f_equal. rewrite !map_map. rewrite List.Forall_forall in IH. apply map_ext_in. intros t Ht. now apply IH.
  - cbn. f_equal; [rewrite !map_map; rewrite List.Forall_forall in IH; apply map_ext_in; intros t Ht; now apply IH|]. apply (IHb (z :: s)).
Qed.
Lemma free_in_plug' w v R d : free_in w (plug v R d) -> free_in w R \/ (w <> v /\ free_in w d).
Proof.
  induction d as [i|z|l| |j ds IH|j ds b IH IHb] using (db_ind2 leaf); try done.
  - cbn. destruct (decide (z = v)) as [->|N]; cbn; [now left|]. intros <-. tauto.
  - cbn [SubstProofs.plug SubstProofs.free_in]. rewrite !free_in_list. rewrite List.Forall_forall in IH. intros (e & He & H). apply in_map_iff in He as (d & <- & Hd). apply (IH d Hd) in H as [?|[? ?]]; [now left|right]. eauto.
  - cbn [SubstProofs.plug SubstProofs.free_in]. rewrite !free_in_list. rewrite List.Forall_forall in IH. intros [(e & He & H)|H].
    + apply in_map_iff in He as (d & <- & Hd). apply (IH d Hd) in H as [?|[? ?]]; [now left|right]. eauto.
    + apply IHb in H. tauto.
Qed.
Lemma hole_plug' v R d : dhole leaf R = true -> dhole leaf d = true -> dhole leaf (plug v R d) = true.
Proof.
  intros HR. induction d as [i|z|l| |j ds IH|j ds b IH IHb] using (db_ind2 leaf); try done; intros H.
  - cbn. destruct (decide (z = v)); done.
  - cbn in *. rewrite forallb_map. rewrite List.Forall_forall in IH. rewrite forallb_forall in *. intros d Hd. apply IH; auto.
  - cbn in *. apply andb_true_iff in H as [H1 H2]. rewrite forallb_map, IHb, andb_true_r by done. rewrite List.Forall_forall in IH. rewrite forallb_forall in *. intros d Hd. apply IH; auto.
Qed.
Lemma mapM_mono {A B} (f g : A -> option B) l r : (forall a b, f a = Some b -> g a = Some b) -> mapM f l = Some r -> mapM g l = Some r.
Proof.
  intros H. revert r. induction l as [|a l IH]; intros r; cbn; [done|]. destruct (f a) as [b|] eqn:E; cbn; [|done]. rewrite (H a b E). cbn. destruct (mapM f l) as [r'|]; cbn; [|done]. rewrite (IH r' eq_refl). done.
Qed.
Lemma sub_mono n : forall m t v r fvs u, n <= m -> sub leaf n t v r fvs = Some u -> sub leaf m t v r fvs = Some u.
Proof.
  induction n as [|n IH]; intros m t v r fvs u L; [done|]. destruct m as [|m]; [lia|]. cbn [sub]. destruct t as [x|l| |k ts|k ts x b]; try done.
  - destruct (mapM (fun t => sub leaf n t v r fvs) ts) as [us|] eqn:E; cbn; [|done]. erewrite mapM_mono; [|intros a c; apply IH; lia|exact E]. done.
  - destruct (mapM (fun t => sub leaf n t v r fvs) ts) as [us|] eqn:E; cbn [mbind option_bind]; [|done]. erewrite mapM_mono; [|intros a c; apply IH; lia|exact E]. cbn [mbind option_bind]. destruct (decide (x = v)); [done|]. destruct (decide (x ∈ fvs)).
    + cbn zeta. destruct (sub leaf n b x _ _) as [b1|] eqn:E1; cbn [mbind option_bind]; [|done]. apply (IH m) in E1; [|lia]. rewrite E1. cbn [mbind option_bind]. destruct (sub leaf n b1 v r fvs) as [b2|] eqn:E2; cbn [mbind option_bind]; [|done]. apply (IH m) in E2; [|lia]. now rewrite E2.
    + destruct (sub leaf n b v r fvs) as [b2|] eqn:E2; cbn [mbind option_bind]; [|done]. apply (IH m) in E2; [|lia]. now rewrite E2.
Qed.
Lemma substitute_some n t v r u : substitute leaf n t v r = Some u -> nameless [] u = plug v (nameless [] r) (nameless [] t).
Proof.
  intros E. destruct (substitute_ok leaf (max n (depth leaf t)) t v r ltac:(lia)) as (u' & E' & _ & H). assert (u' = u) as ->; [|done]. unfold substitute in *. destruct (SubstModel.occurs_free leaf t v); [|congruence]. apply (sub_mono n (max n (depth leaf t))) in E; [|lia]. congruence.
Qed.
Lemma scoped_nameless G t : (forall z, free_in z (nameless [] t) -> z ∈ map fst G) -> scoped G t.
Proof. intros H z Hz. apply H. apply occurs_free_in; [done|apply not_elem_of_nil]. Qed.
Lemma forget_fst G : map fst (forget G) = map fst G.
Proof. unfold forget. rewrite map_map. apply map_ext. now intros [x A]. Qed.
Lemma lookup_In G x A : lookup univ G x = Some A -> In (x, A) G.
Proof. induction G as [|[y B] G IH]; cbn; [done|]. destruct (decide (y = x)) as [->|]; [intros [= ->]; now left|]. auto. Qed.
Lemma context_lookup G x A : context_ok G -> lookup univ G x = Some A -> fine G A /\ x ∈ map fst G.
Proof.
  intros C H. apply lookup_In in H. split; [|apply elem_of_list_In, (in_map fst _ _ H)]. unfold context_ok in C. rewrite List.Forall_forall in C. exact (C _ H).
Qed.
Lemma fine_cons G x A t : fine G t -> fine ((x, A) :: G) t.
Proof. intros [S H]. split; [|done]. intros z Hz. right. now apply S. Qed.
Lemma context_cons G x A : context_ok G -> fine G A -> context_ok ((x, A) :: G).
Proof. intros C F. constructor; [now apply fine_cons|]. eapply List.Forall_impl; [|exact C]. intros [y B]. apply fine_cons. Qed.
Lemma fine_app G t : fine [] t -> fine G t.
Proof. intros [S H]. split; [|done]. intros z Hz. apply S in Hz. now apply not_elem_of_nil in Hz. Qed.
Lemma scoped_bind k G A x b T : scoped G A -> scoped ((x, T) :: G) b -> scoped G (TBind leaf k [A] x b).
Proof.
  intros SA Sb z. rewrite occurs_bind. cbn. rewrite orb_false_r, orb_true_iff, andb_true_iff, negb_true_iff, bool_decide_eq_false. intros [H|[N H]]; [now apply SA|]. apply Sb in H. cbn in H. apply elem_of_cons in H as [->|H]; [done|done].
Qed.
Lemma as_sort_some t u : as_sort univ t = Some u -> t = TLeaf leaf (LSort univ u).
Proof. destruct t as [x|[v|g]| |k ts|k ts x b]; try done. intros [= ->]. done. Qed.
Lemma as_pi_some t x A B : as_pi univ t = Some (x, A, B) -> t = TBind leaf BPi [A] x B.
Proof. destruct t as [y|l| |k ts|k ts y b]; try done. destruct k; try done. destruct ts as [|a [|c ts]]; try done. cbn. intros [= -> -> ->]. done. Qed.
Lemma fine_pi G x A B : fine G (TBind leaf BPi [A] x B) -> fine G A /\ fine ((x, A) :: G) B.
Proof.
  intros [S H]. cbn in H. rewrite andb_true_r in H. apply andb_true_iff in H as [H1 H2]. split; (split; [|done]); intros z Hz.
  - apply S. rewrite occurs_bind. cbn. rewrite Hz. done.
  - cbn. destruct (decide (x = z)) as [->|N]; [left|right]. apply S. rewrite occurs_bind, orb_true_iff, andb_true_iff, negb_true_iff, bool_decide_eq_false. now right.
Qed.
Lemma infer_ok n : (forall G t T, context_ok G -> plain t -> fresh_binders (map fst G) t = true -> infer n G t = Some T -> scoped G t /\ fine G T /\ typed (forget G) (nameless [] t) (nameless [] T)) /\
  (forall G t E, context_ok G -> plain t -> fresh_binders (map fst G) t = true -> fine G E -> check n G t E = Some () -> scoped G t /\ typed (forget G) (nameless [] t) (nameless [] E)).
Proof.
  induction n as [|n [IHi IHc]]; [done|]. split.
  - intros G t T C (P1 & P2 & P3) F E. cbn [InferModel.infer] in E. destruct t as [x|[u|g]| |[|] ts|k ts x b]; try done.
    + destruct (context_lookup G x T C E) as [HT Hx]. split; [intros z; cbn; intros H; apply bool_decide_eq_true in H as <-; done|]. split; [done|]. cbn. constructor. apply lookup_In in E. apply in_map_iff. exists (x, T). done.
    + injection E as <-. split; [done|]. split; [done|]. constructor.
    + split; [done|]. split; [apply fine_app; eapply globals_ok; eassumption|]. now constructor.
    + destruct ts as [|f [|a [|c ts]]]; try done. cbn in P1, P2, P3, F. rewrite !andb_true_r, andb_true_iff in P1, P2, P3, F. destruct P1 as [P1f P1a], P2 as [P2f P2a], P3 as [P3f P3a], F as [Ff Fa].
      destruct (infer n G f) as [T1|] eqn:Ef; [|done]. cbn [mbind option_bind] in E. destruct (IHi G f T1 C (conj P1f (conj P2f P3f)) Ff Ef) as (Sf & F1 & Tf).
      assert (K : exists T2 x A B, as_pi univ T2 = Some (x, A, B) /\ fine G T2 /\ typed (forget G) (nameless [] f) (nameless [] T2) /\ (_ ← check n G a A; substitute leaf n B x a) = Some T).
      { destruct (as_pi univ T1) as [[[x A] B]|] eqn:E1; cbn [mbind option_bind] in E.
        - rewrite E1 in E. eexists T1, x, A, B. done.
        - destruct (normalize G T1) as [T2|] eqn:E2; [|done]. cbn [mbind option_bind] in E. destruct (as_pi univ T2) as [[[x A] B]|] eqn:E3; [|done]. destruct (normalize_ok G T1 T2 C F1 E2) as [F2 L2]. exists T2, x, A, B. split; [done|]. split; [done|]. split; [eapply ty_conv; eauto|done]. }
      clear E. destruct K as (T2 & x & A & B & E2 & F2 & Tf2 & E). apply as_pi_some in E2 as ->. destruct (check n G a A) as [[]|] eqn:Ea; [|done]. cbn [mbind option_bind] in E. destruct (fine_pi G x A B F2) as [[SA HA] [SB HB]].
      destruct (IHc G a A C (conj P1a (conj P2a P3a)) Fa (conj SA HA) Ea) as (Sa & Ta). pose proof (substitute_some _ _ _ _ _ E) as NT. split; [|split; [split|]].
      * intros z. rewrite occurs_node. cbn. rewrite orb_false_r, orb_true_iff. intros [H|H]; auto.
      * apply scoped_nameless. intros z Hz. rewrite NT in Hz. apply free_in_plug' in Hz as [Hz|[N Hz]]; apply free_in_nameless in Hz as [Hz _]; [auto|]. apply SB in Hz. cbn in Hz. apply elem_of_cons in Hz as [->|Hz]; done.
      * rewrite <- (hole_nameless leaf T []), NT. apply hole_plug'; now rewrite hole_nameless.
      * rewrite NT, <- (inst_plug (nameless [] a) x B []). cbn. eapply ty_app; [exact Tf2|done].
    + cbn [SubstProps.let_free] in P2. apply andb_true_iff in P2 as [P2' P2]. apply negb_true_iff, bool_decide_eq_false in P2'. destruct k; try done; destruct ts as [|A [|c ts]]; try done; cbn [SubstProps.fresh_binders forallb] in F; apply andb_true_iff in F as [FA F]; apply andb_true_iff in F as [Fx Fb]; cbn in P1, P3; cbn [forallb] in P2; apply andb_true_iff in P1 as [P1A P1b], P2 as [P2A P2b], P3 as [P3A P3b], FA as [FA _]; apply andb_true_iff in P1A as [P1A _], P2A as [P2A _], P3A as [P3A _]; apply bool_decide_eq_true in Fx.
      * destruct (infer n G A) as [T1|] eqn:EA; [|done]. cbn [mbind option_bind] in E. destruct (as_sort univ T1) as [u|] eqn:E1; [|done]. apply as_sort_some in E1 as ->. cbn [mbind option_bind] in E. destruct (infer n ((x, A) :: G) b) as [T2|] eqn:Eb; [|done]. cbn [mbind option_bind] in E. destruct (as_sort univ T2) as [v|] eqn:E2; [|done]. apply as_sort_some in E2 as ->. cbn [mbind option_bind] in E. destruct (uimax u v) as [w|] eqn:Ew; [|done]. injection E as <-.
        destruct (IHi G A _ C (conj P1A (conj P2A P3A)) FA EA) as (SA & _ & TA). destruct (IHi ((x, A) :: G) b _ (context_cons G x A C (conj SA P1A)) (conj P1b (conj P2b P3b)) Fb Eb) as (Sb & _ & Tb).
        split; [eapply scoped_bind; eauto|]. split; [done|]. cbn. eapply (ty_pi _ _ _ x); [exact TA|now rewrite forget_fst| | |exact Ew]; [intros O; apply free_in_nameless in O as [_ O]; apply O; left|]. pose proof (nameless_open_at leaf b x []) as O. cbn in O. rewrite O. exact Tb.
      * destruct (infer n G A) as [T1|] eqn:EA; [|done]. cbn [mbind option_bind] in E. destruct (as_sort univ T1) as [u|] eqn:E1; [|done]. apply as_sort_some in E1 as ->. cbn [mbind option_bind] in E. destruct (infer n ((x, A) :: G) b) as [T2|] eqn:Eb; [|done]. injection E as <-.
        destruct (IHi G A _ C (conj P1A (conj P2A P3A)) FA EA) as (SA & _ & TA). destruct (IHi ((x, A) :: G) b _ (context_cons G x A C (conj SA P1A)) (conj P1b (conj P2b P3b)) Fb Eb) as (Sb & [S2 H2] & Tb).
        split; [eapply scoped_bind; eauto|]. split; [split; [eapply scoped_bind; eauto|cbn; now rewrite P1A, H2]|]. cbn. eapply (ty_lam _ _ _ _ x); [exact TA|now rewrite forget_fst| | |]; [intros O; apply free_in_nameless in O as [_ O]; apply O; left|intros O; apply free_in_nameless in O as [_ O]; apply O; left|]. pose proof (nameless_open_at leaf b x []) as O. pose proof (nameless_open_at leaf T2 x []) as O2. cbn in O, O2. rewrite O, O2. exact Tb.
  - intros G t T C P F FT E. cbn [InferModel.check] in E. assert (Ht : is_hole univ t = false) by (destruct P as [P _]; now destruct t). assert (HT : is_hole univ T = false) by (destruct FT as [_ P']; now destruct T). rewrite Ht, HT in E.
    assert (Hp : placeholder univ t = None). { destruct P as (_ & _ & P). destruct t as [|l| |k ts|k ts x b]; try done. destruct k; try done. destruct ts as [|[y|[u|g]| |k ts|k ts y d] [|c ts']]; try done. cbn in P. cbn. destruct (decide (g = "_")); [|done]. subst. done. }
    rewrite Hp in E. change ((T1 ← infer n G t; s ← subtype n G T1 T; if (s : bool) then Some () else None) = Some ()) in E. destruct (infer n G t) as [T1|] eqn:Et; [|done]. cbn [mbind option_bind] in E. destruct (subtype n G T1 T) as [[|]|] eqn:Es; try done. destruct (IHi G t T1 C P F Et) as (St & F1 & Tt). split; [done|]. eapply ty_conv; [exact Tt|]. eapply subtype_ok; eauto.
Qed.
(** Given a sound comparison of types, what is inferred for a term that hides no name in scope is a type of it, by the rules on nameless terms. *)
Theorem C91_sound_partial : forall n G t T, context_ok G -> plain t -> fresh_binders (map fst G) t = true -> infer n G t = Some T -> typed (forget G) (nameless [] t) (nameless [] T).
Proof. intros n G t T C P F E. apply (proj1 (infer_ok n) G t T C P F E). Qed.
Theorem C91_certificate_partial : forall n t T, plain t -> fresh_binders [] t = true -> fine [] T -> recheck univ usucc uimax globals normalize subtype n t T = true -> typed [] (nameless [] t) (nameless [] T).
Proof.
  intros n t T P F FT E. unfold recheck in E. destruct (infer n [] t) as [T1|] eqn:Et; [|done]. apply bool_decide_eq_true in E. destruct (proj1 (infer_ok n) [] t T1 (List.Forall_nil _) P F Et) as (_ & F1 & Tt). eapply ty_conv; [exact Tt|]. apply (subtype_ok n [] T1 T); try done. constructor.
Qed.
End Props.

(** ** The kernel's own comparison *)
Definition ueq (u v : universe) : bool := bool_decide (equiv 20 u v = Some true).
Local Notation T := (SubstModel.term (InferModel.leaf universe)).
Local Notation var x := (TVar (InferModel.leaf universe) x). Local Notation PROP := (TLeaf (InferModel.leaf universe) (LSort universe Prp)).
Local Notation pi x a b := (TBind (InferModel.leaf universe) BPi [a] x b). Local Notation lam x a b := (TBind (InferModel.leaf universe) BLambda [a] x b). Local Notation app f a := (TNode (InferModel.leaf universe) NApp [f; a]).
Local Open Scope string_scope.
(** Whatever the globals, reduction and the rest of the comparison. *)
Definition kernel_infer (g : string -> option T) (nz : list (string * T) -> T -> option T) (slow : list (string * T) -> T -> T -> option bool) := infer universe succ (imax 20) g nz (is_subtype ueq slow).
Definition kernel_recheck (g : string -> option T) (nz : list (string * T) -> T -> option T) (slow : list (string * T) -> T -> T -> option bool) := recheck universe succ (imax 20) g nz (is_subtype ueq slow).
(** What a proposition built from Prop, products and variables says. *)
Fixpoint says (r : list Prop) (d : db (InferModel.leaf universe)) : Prop :=
  match d with
  | DIdx _ i => nth i r False
  | DBind _ BPi [DLeaf _ (LSort _ Prp)] B => forall P : Prop, says (P :: r) B
  | DBind _ BPi [A] B => says r A -> says (True :: r) B
  | _ => False
  end.
Ltac by_running := exists 20; let n := fresh in intros n ?; do 20 (destruct n as [|n]; [exfalso; lia|]); vm_compute; reflexivity.

(** With equality of nameless terms for comparison the hypotheses of [C91_sound_partial] hold. *)
Fixpoint db_eqb (a b : db (InferModel.leaf nat)) : bool :=
  match a, b with
  | DIdx _ i, DIdx _ j => Nat.eqb i j | DFree _ x, DFree _ y => bool_decide (x = y) | DLeaf _ (LSort _ u), DLeaf _ (LSort _ v) => Nat.eqb u v | DLeaf _ (LGlobal _ g), DLeaf _ (LGlobal _ h) => bool_decide (g = h)
  | DNode _ k ds, DNode _ j es => bool_decide (k = j) && (fix go ds es := match ds, es with [], [] => true | d :: ds, e :: es => db_eqb d e && go ds es | _, _ => false end) ds es
  | DBind _ k ds d, DBind _ j es e => bool_decide (k = j) && ((fix go ds es := match ds, es with [], [] => true | d :: ds, e :: es => db_eqb d e && go ds es | _, _ => false end) ds es && db_eqb d e)
  | _, _ => false end.
Lemma db_eqb_eq a : forall b, db_eqb a b = true -> a = b.
Proof.
  assert (K : forall ds, List.Forall (fun a => forall b, db_eqb a b = true -> a = b) ds -> forall es, (fix go ds es := match ds, es with [], [] => true | d :: ds, e :: es => db_eqb d e && go ds es | _, _ => false end) ds es = true -> ds = es).
  { induction 1 as [|d ds Hd _ IH]; intros [|e es]; try done. rewrite andb_true_iff. intros [H1 H2]. f_equal; auto. }
  induction a as [i|z|[u|g]| |j ds IH|j ds b IH IHb] using (db_ind2 (InferModel.leaf nat)); intros [i'|z'|[u'|g']| |j' ds'|j' ds' b']; try done; cbn [db_eqb].
  - intros H. apply Nat.eqb_eq in H. congruence.
  - intros H. apply bool_decide_eq_true in H. congruence.
  - intros H. apply Nat.eqb_eq in H. congruence.
  - intros H. apply bool_decide_eq_true in H. congruence.
  - rewrite andb_true_iff, bool_decide_eq_true. intros [-> H]. apply (K ds IH) in H. congruence.
  - rewrite !andb_true_iff, bool_decide_eq_true. intros (-> & H & H'). apply (K ds IH) in H. apply IHb in H'. congruence.
Qed.
Example C91_sound_ex :
  let leq := fun (_ : list (string * db (InferModel.leaf nat))) a b => a = b in let prop := TLeaf (InferModel.leaf nat) (LSort nat 0) in let v := TVar (InferModel.leaf nat) in
  let imx := fun u v => Some (if Nat.eqb v 0 then 0 else max u v) in let sub := fun (_ : nat) (_ : list (string * term (InferModel.leaf nat))) a b => Some (db_eqb (nameless (InferModel.leaf nat) [] a) (nameless (InferModel.leaf nat) [] b)) in
  let pi := fun x a b => TBind (InferModel.leaf nat) BPi [a] x b in let lam := fun x a b => TBind (InferModel.leaf nat) BLambda [a] x b in let app := fun f a => TNode (InferModel.leaf nat) NApp [f; a] in
  let t := app (lam "x" prop (lam "y" (v "x") (v "y"))) (pi "x" prop (pi "y" (v "x") (v "x"))) in
  let X := pi "y" (pi "x" prop (pi "y" (v "x") (v "x"))) (pi "x" prop (pi "y" (v "x") (v "x"))) in
  infer nat S imx (fun _ => None) (fun _ _ => None) sub 10 [] t = Some X /\ typed nat S imx (fun _ => None) leq [] (nameless _ [] t) (nameless _ [] X).
Proof.
  cbn zeta. split; [vm_compute; reflexivity|]. eapply (C91_sound_partial nat S _ (fun _ => None) (fun _ _ => None) (fun _ _ a b => Some (db_eqb (nameless (InferModel.leaf nat) [] a) (nameless (InferModel.leaf nat) [] b))) (fun _ a b => a = b)) with (G := []) (n := 10); try done.
  - intros n G a b _ _ _ [= H]. now apply db_eqb_eq.
  - constructor.
Qed.

(** The type of a variable is taken from the context as it stands, also under a binder that hides a name in it: [fun (A : Prop) (h : A) (A : Prop) => h] is given the type [forall A, A -> forall A, A], which is false. *)
Theorem C91_capture_refuted : forall g nz slow, exists t X, plain universe t /\ SubstModel.free_vars _ [] t = [] /\ (exists n0, forall n, n0 <= n -> kernel_infer g nz slow n [] t = Some X) /\ ~ says [] (nameless _ [] X).
Proof.
  intros g nz slow. exists (lam "A" PROP (lam "h" (var "A") (lam "A" PROP (var "h")))), (pi "A" PROP (pi "h" (var "A") (pi "A" PROP (var "A")))). split; [vm_compute; done|]. split; [done|]. split; [by_running|].
  intros H. cbn in H. exact (H True I False).
Qed.
(** So a certificate of [forall A, A] passes. *)
Theorem C91_false_refuted : forall g nz slow, exists t, plain universe t /\ SubstModel.free_vars _ [] t = [] /\ (exists n0, forall n, n0 <= n -> kernel_recheck g nz slow n t (pi "A" PROP (var "A")) = true) /\ ~ says [] (nameless _ [] (pi "A" PROP (var "A"))).
Proof.
  intros g nz slow. exists (app (app (lam "A" PROP (lam "h" (var "A") (lam "A" PROP (var "h")))) (pi "P" PROP (pi "p" (var "P") (var "P")))) (lam "P" PROP (lam "p" (var "P") (var "p")))). split; [vm_compute; done|]. split; [done|]. split; [by_running|].
  intros H. cbn in H. exact (H False).
Qed.
(** Nor does it help that no binder of the term hides a name: substitution puts one binder under another of the same name, and the comparison (C90_shadow_refuted) takes [forall A A, A -> A] for [forall P Q, P -> Q]. *)
Theorem C91_compare_refuted : forall g nz slow, exists t X, plain universe t /\ fresh_binders _ [] t = true /\ SubstModel.free_vars _ [] t = [] /\ fine universe [] X /\ (exists n0, forall n, n0 <= n -> kernel_recheck g nz slow n t X = true) /\ ~ says [] (nameless _ [] X).
Proof.
  intros g nz slow. exists (app (app (lam "X" PROP (lam "x" (var "X") (lam "A" PROP (var "x")))) (pi "A" PROP (pi "h" (var "A") (var "A")))) (lam "B" PROP (lam "b" (var "B") (var "b")))), (pi "P" PROP (pi "Q" PROP (pi "h" (var "P") (var "Q")))).
  split; [vm_compute; done|]. split; [done|]. split; [done|]. split; [split; [|done]; intros z Hz; exfalso; exact (proj2 (free_occurs _ _ [] z) (conj Hz (not_elem_of_nil z)))|]. split; [by_running|].
  intros H. cbn in H. exact (H True False I).
Qed.
