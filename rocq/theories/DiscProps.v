(** Property C63: the discrimination tree. *)
From Coq Require Import String List Arith Lia Bool.
From stdpp Require Import gmap strings list.
From Verif Require Import UnifyModel UnifyProofs UnifyProps UnifyExprProofs UnifyExprProps MatchProps DiscModel.
Local Open Scope string_scope.
Local Open Scope list_scope.

(** ** What must be retrieved *)
(** The pattern may match the query: same symbols with the same numbers of arguments at every place where
    neither side has a variable. *)
Fixpoint may_term (p t : pterm) : bool :=
  match p, t with
  | PVar _, _ | _, PVar _ => true
  | PConst a, PConst b | PBound a, PBound b => String.eqb a b
  | PFun f l, PFun g m =>
      String.eqb f g && (fix go l m := match l, m with [], [] => true | a :: l, b :: m => may_term a b && go l m | _, _ => false end) l m
  | PGroup l, PGroup m => (fix go l m := match l, m with [], [] => true | a :: l, b :: m => may_term a b && go l m | _, _ => false end) l m
  | _, _ => false
  end.
Definition opaque (e : pexpr) : bool := match e with EQuant _ _ _ | ETemp _ _ | ETemp2 _ _ _ | EOther _ => true | _ => false end.
Fixpoint may_expr (p t : pexpr) : bool :=
  opaque p || opaque t ||
  match p, t with
  | EPred f l _, EPred g m _ => String.eqb f g && may_term (PGroup l) (PGroup m)
  | EIdent a b, EIdent c d => may_term a c && may_term b d
  | EAtom a, EAtom b => String.eqb a b
  | EBin c a b, EBin d a' b' => conn_eqb c d && may_expr a a' && may_expr b b'
  | ENot a, ENot b => may_expr a b
  | _, _ => false
  end.
Definition is_var (t : pterm) : bool := match t with PVar _ => true | _ => false end.
(** A term and an expression meet only where one of them is a wildcard as a whole. *)
Definition may (p q : pattern) : bool :=
  match p, q with
  | PTerm t, PTerm u => may_term t u
  | PExpr e, PExpr f => may_expr e f
  | PTerm t, PExpr e | PExpr e, PTerm t => is_var t || opaque e
  end.

(** ** Trees of keys *)
Inductive tr := TSym (s : string) (l : list tr) | TStar.
Section TrInd.
  Context (P : tr -> Prop) (Hs : forall s l, Forall P l -> P (TSym s l)) (Hx : P TStar).
  Fixpoint tr_ind' (t : tr) : P t :=
    match t with
    | TStar => Hx
    | TSym s l => Hs s l ((fix go l : Forall P l := match l with [] => Forall_nil_2 P | a :: l => Forall_cons_2 P a l (tr_ind' a) (go l) end) l)
    end.
End TrInd.
Fixpoint flat (t : tr) : list key := match t with TSym s l => KSym s (length l) :: flat_map flat l | TStar => [KStar] end.
Fixpoint tmay (p q : tr) : bool :=
  match p, q with
  | TStar, _ | _, TStar => true
  | TSym f l, TSym g m => String.eqb f g && (fix go l m := match l, m with [], [] => true | a :: l, b :: m => tmay a b && go l m | _, _ => false end) l m
  end.
Fixpoint term_tr (t : pterm) : tr :=
  match t with
  | PVar _ => TStar
  | PConst s => TSym ("c:" +:+ s) []
  | PBound s => TSym ("b:" +:+ s) []
  | PFun f l => TSym ("f:" +:+ f) (map term_tr l)
  | PGroup l => TSym "(,)" (map term_tr l)
  end.
Fixpoint expr_tr (e : pexpr) : tr :=
  match e with
  | EPred p l _ => TSym ("p:" +:+ p) (map term_tr l)
  | EIdent a b => TSym "=" [term_tr a; term_tr b]
  | EAtom s => TSym ("a:" +:+ s) []
  | EBin c a b => TSym (conn_key c) [expr_tr a; expr_tr b]
  | ENot a => TSym "¬" [expr_tr a]
  | EQuant _ _ _ | ETemp _ _ | ETemp2 _ _ _ | EOther _ => TStar
  end.
Definition pat_tr (p : pattern) : tr := match p with PTerm t => term_tr t | PExpr e => expr_tr e end.
Lemma flat_term t : flatten_term t = flat (term_tr t).
Proof.
  induction t as [c|x|x|f l IH|l IH] using pterm_ind'; cbn; try done; rewrite map_length; f_equal;
    induction IH as [|a l Ha _ IHl]; cbn; try done; by rewrite Ha, IHl.
Qed.
Lemma flat_terms l : flat_map flatten_term l = flat_map flat (map term_tr l).
Proof. induction l as [|a l IH]; cbn; [done|]. by rewrite flat_term, IH. Qed.
Lemma flat_expr e : flatten_expr e = flat (expr_tr e).
Proof. induction e; cbn; rewrite ?map_length, ?flat_terms, ?flat_term, ?app_nil_r; try done; by rewrite ?IHe1, ?IHe2, ?IHe. Qed.
Lemma flat_pat p : flatten p = flat (pat_tr p).
Proof. destruct p; [apply flat_term|apply flat_expr]. Qed.
Lemma tmay_terms l : Forall (fun p => forall q, tmay (term_tr p) (term_tr q) = may_term p q) l -> forall m,
  (fix go l m := match l, m with [], [] => true | a :: l, b :: m => tmay a b && go l m | _, _ => false end) (map term_tr l) (map term_tr m) =
  (fix go l m := match l, m with [], [] => true | a :: l, b :: m => may_term a b && go l m | _, _ => false end) l m.
Proof. induction 1 as [|a l Ha _ IHl]; intros [|b m]; cbn; try done. by rewrite Ha, IHl. Qed.
Lemma prefix_eqb (a : string) x y : String.eqb (a +:+ x) (a +:+ y) = String.eqb x y.
Proof. destruct (String.eqb_spec x y) as [-> |Hn]; [apply String.eqb_refl|]. apply String.eqb_neq. intros H. by apply (inj (String.append a)) in H. Qed.
Lemma tmay_term p q : tmay (term_tr p) (term_tr q) = may_term p q.
Proof.
  revert q. induction p as [c|x|x|f l IH|l IH] using pterm_ind'; intros [d|y|g m|m|y]; cbn -[String.eqb String.append]; try done;
    rewrite ?andb_true_r, ?prefix_eqb; try done.
  - by rewrite (tmay_terms l IH).
  - by rewrite (tmay_terms l IH).
Qed.
Lemma tmay_expr p q : tmay (expr_tr p) (expr_tr q) = may_expr p q.
Proof.
  assert (HT : forall l, Forall (fun p => forall q, tmay (term_tr p) (term_tr q) = may_term p q) l) by (intros l; apply Forall_forall; intros; apply tmay_term).
  revert q. induction p as [f l w|a b|a|c a IHa b IHb|a IHa|z x a IHa|o a IHa|o a IHa b IHb|j]; intros [];
    cbn -[String.eqb String.append conn_key]; rewrite ?orb_true_r; try done; rewrite ?andb_true_r, ?prefix_eqb, ?(tmay_terms _ (HT _)), ?tmay_term, ?IHa, ?IHb; try done.
  all: repeat match goal with c : conn |- _ => destruct c end; done.
Qed.
Lemma tmay_pat p q : tmay (pat_tr p) (pat_tr q) = may p q.
Proof.
  destruct p as [t|e], q as [u|f]; [apply tmay_term| | |apply tmay_expr]; cbn [pat_tr may].
  - destruct t, f; try done; cbn -[String.eqb]; by repeat match goal with c : conn |- _ => destruct c end.
  - destruct e, u; try done; cbn -[String.eqb]; by repeat match goal with c : conn |- _ => destruct c end.
Qed.

(** ** Alignment of key sequences *)
(** Drop [n] complete subterms. *)
Fixpoint skipk (n : nat) (p : list key) : option (list key) :=
  match n with
  | O => Some p
  | S n => match p with [] => None | k :: p => skipk (n + arity k) p end
  end.
(** [sk] subterms of the query are still to be dropped. *)
Fixpoint alignk (sk : nat) (ps qs : list key) {struct qs} : bool :=
  match qs with
  | [] => match ps, sk with [], O => true | _, _ => false end
  | q :: qs =>
      match sk with
      | S m => alignk (m + arity q) ps qs
      | O => match q, ps with
             | KStar, _ => match skipk 1 ps with Some ps => alignk 0 ps qs | None => false end
             | KSym _ _, [] => false
             | KSym s a, p :: ps => if decide (p = KSym s a) then alignk 0 ps qs else if decide (p = KStar) then alignk a ps qs else false
             end
      end
  end.
Lemma skipk_0 p : skipk 0 p = Some p.
Proof. by destruct p. Qed.
Lemma skipk_app : forall l n p, skipk (length l + n) (flat_map flat l ++ p) = skipk n p.
Proof.
  assert (HT : forall t n p, skipk (S n) (flat t ++ p) = skipk n p).
  { induction t as [s l IH|] using tr_ind'; intros n p; [|cbn; by rewrite Nat.add_0_r]. cbn [flat app skipk arity].
    rewrite Nat.add_comm. clear s. revert n p. induction IH as [|a l Ha _ IHl]; intros n p; [done|]. cbn [length flat_map plus]. rewrite <- app_assoc, Ha. apply IHl. }
  induction l as [|a l IH]; intros n p; [done|]. cbn [length flat_map plus]. rewrite <- app_assoc, HT. apply IH.
Qed.
Lemma skipk_flat t n p : skipk (S n) (flat t ++ p) = skipk n p.
Proof. pose proof (skipk_app [t] n p) as H. cbn [flat_map length] in H. by rewrite app_nil_r in H. Qed.
Lemma alignk_skip qs : forall sk ps rest, skipk sk qs = Some rest -> alignk sk ps qs = alignk 0 ps rest.
Proof.
  induction qs as [|q qs IH]; intros [|sk] ps rest H; cbn [skipk] in H; try done.
  - by injection H as <-.
  - by injection H as <-.
  - cbn [alignk]. by apply IH.
Qed.
Definition forest_may (l m : list tr) : bool :=
  (fix go l m := match l, m with [], [] => true | a :: l, b :: m => tmay a b && go l m | _, _ => false end) l m.
Lemma alignk_flat q : forall p ps qs, alignk 0 (flat p ++ ps) (flat q ++ qs) = tmay p q && alignk 0 ps qs.
Proof.
  induction q as [g m IH|] using tr_ind'; intros p ps qs.
  - destruct p as [f l|].
    + cbn [flat app alignk tmay]. fold (forest_may l m).
      destruct (decide (KSym f (length l) = KSym g (length m))) as [He|He].
      * injection He as -> Hlen. rewrite String.eqb_refl. cbn [andb].
        revert l Hlen. induction IH as [|b m Hb _ IHm]; intros [|a l] Hlen; try done. injection Hlen as Hlen. cbn [flat_map forest_may].
        rewrite <- !app_assoc, Hb. rewrite IHm by done. by rewrite andb_assoc.
      * rewrite decide_False by done. destruct (String.eqb_spec f g) as [-> |Hn]; [|done]. cbn [andb].
        assert (Hl : length l <> length m) by congruence. assert (forest_may l m = false) as ->; [|done].
        clear -Hl. revert m Hl. induction l as [|a l IHl]; intros [|b m] Hl; try done. cbn. rewrite IHl; [by rewrite andb_false_r|]. cbn in Hl. lia.
    + cbn [flat app alignk tmay]. rewrite decide_False by done. rewrite decide_True by done. cbn [andb].
      apply alignk_skip. pose proof (skipk_app m 0 qs) as H. by rewrite Nat.add_0_r, skipk_0 in H.
  - cbn [flat app alignk]. rewrite skipk_flat, skipk_0. by destruct p.
Qed.
Lemma align_may p q : alignk 0 (flat p) (flat q) = tmay p q.
Proof. pose proof (alignk_flat q p [] []) as H. rewrite !app_nil_r in H. rewrite H. cbn. by rewrite andb_true_r. Qed.

(** ** The trie as a list of (keys, value) entries *)
Section NodeInd.
  Context {A : Type} (P : node A -> Prop) (Hn : forall ch vals, Forall (fun kc => P (snd kc)) ch -> P (Node ch vals)).
  Fixpoint node_ind' (n : node A) : P n :=
    match n with
    | Node ch vals => Hn ch vals ((fix go (l : list (key * node A)) : Forall (fun kc => P (snd kc)) l :=
        match l with [] => Forall_nil_2 _ | a :: l => Forall_cons_2 _ a l (node_ind' (snd a)) (go l) end) ch)
    end.
End NodeInd.
Section Trie.
  Context {A : Type}.
  Implicit Types nd : node A.
  Fixpoint entries nd : list (list key * A) :=
    match nd with
    | Node ch vals => map (fun v => ([], v)) vals ++ flat_map (fun kc => map (fun e => (fst kc :: fst e, snd e)) (entries (snd kc))) ch
    end.
  Fixpoint wf nd : Prop :=
    match nd with
    | Node ch _ => NoDup (map fst ch) /\ (fix go (l : list (key * node A)) := match l with [] => True | kc :: l => wf (snd kc) /\ go l end) ch
    end.
  Lemma wf_node ch vals : wf (Node ch vals) <-> NoDup (map fst ch) /\ Forall (fun kc => wf (snd kc)) ch.
  Proof.
    cbn [wf]. assert (HL : (fix go (l : list (key * node A)) := match l with [] => True | kc :: l => wf (snd kc) /\ go l end) ch <-> Forall (fun kc => wf (snd kc)) ch); [|tauto].
    clear vals. induction ch as [|kc ch IH]; [done|]. rewrite Forall_cons. tauto.
  Qed.
  Definition child_entries (kc : key * node A) : list (list key * A) := map (fun e => (fst kc :: fst e, snd e)) (entries (snd kc)).
  Lemma at_key_entries k f ch (e : list key * A) : (forall c, entries (f c) ≡ₚ e :: entries c) ->
    flat_map child_entries (at_key k f ch) ≡ₚ (k :: fst e, snd e) :: flat_map child_entries ch.
  Proof.
    intros Hf. induction ch as [|[k' c] ch IH]; cbn [at_key flat_map].
    - unfold child_entries. cbn [fst snd]. rewrite (Hf empty_node). done.
    - destruct (decide (k = k')) as [<- |Hn]; cbn [flat_map].
      + unfold child_entries at 1. cbn [fst snd]. rewrite (Hf c). cbn. done.
      + rewrite IH. symmetry. apply Permutation_middle.
  Qed.
  Lemma insert_entries ks (v : A) nd : entries (insert_keys ks v nd) ≡ₚ (ks, v) :: entries nd.
  Proof.
    revert nd. induction ks as [|k ks IH]; intros [ch vals]; cbn [insert_keys entries].
    - rewrite map_app. cbn. rewrite <- app_assoc. symmetry. apply Permutation_middle.
    - change (flat_map (fun kc => map (fun e => (fst kc :: fst e, snd e)) (entries (snd kc))) ?l) with (flat_map child_entries l).
      rewrite (at_key_entries k _ ch (ks, v)) by (intros c; apply IH). cbn [fst snd]. symmetry. apply Permutation_middle.
  Qed.
  Lemma at_key_fst k (f : node A -> node A) ch x : x ∈ map fst (at_key k f ch) <-> x = k \/ x ∈ map fst ch.
  Proof.
    induction ch as [|[k' c] ch IH]; cbn [at_key map fst].
    - set_solver.
    - destruct (decide (k = k')) as [<- |Hn]; cbn [map fst]; [set_solver|]. rewrite !elem_of_cons, IH. tauto.
  Qed.
  Lemma insert_wf ks (v : A) nd : wf nd -> wf (insert_keys ks v nd).
  Proof.
    revert nd. induction ks as [|k ks IH]; intros [ch vals]; cbn [insert_keys]; rewrite !wf_node; [done|]. intros [Hn Hc].
    induction ch as [|[k' c] ch IHc]; cbn [at_key map fst].
    - split; [constructor; [set_solver|constructor]|]. constructor; [|done]. apply IH. apply wf_node. split; constructor.
    - cbn [map fst] in Hn. apply NoDup_cons in Hn as [Hk Hn]. apply Forall_cons in Hc as [Hc1 Hc2]. destruct (decide (k = k')) as [<- |Hne]; cbn [map fst].
      + split; [by constructor|]. constructor; [by apply IH|done].
      + destruct (IHc Hn Hc2) as [H1 H2]. split; [constructor; [|done]|by constructor]. rewrite at_key_fst. intros [->|H]; done.
  Qed.
  Definition okv (f : list key -> bool) (l : list (list key * A)) : list A := omap (fun e => if f (fst e) then Some (snd e) else None) l.
  Lemma okv_app f l m : okv f (l ++ m) = okv f l ++ okv f m.
  Proof. unfold okv. apply omap_app. Qed.
  Lemma okv_perm f l m : l ≡ₚ m -> okv f l ≡ₚ okv f m.
  Proof. intros H. unfold okv. by rewrite H. Qed.
  Lemma okv_none f l : (forall e, e ∈ l -> f (fst e) = false) -> okv f l = [].
  Proof. induction l as [|e l IH]; intros H; [done|]. unfold okv. cbn. rewrite (H e) by left. apply IH. intros x Hx. apply H. by right. Qed.
  Lemma okv_ext f g l : (forall e, e ∈ l -> f (fst e) = g (fst e)) -> okv f l = okv g l.
  Proof. induction l as [|e l IH]; intros H; [done|]. unfold okv in *. cbn. rewrite (H e) by left. rewrite IH by (intros x Hx; apply H; by right). done. Qed.
  Lemma okv_child f k c : okv f (child_entries (k, c)) = okv (fun p => f (k :: p)) (entries c).
  Proof. unfold child_entries, okv. cbn [fst snd]. induction (entries c) as [|e l IH]; [done|]. cbn. rewrite IH. done. Qed.
  Lemma okv_children f ch : okv f (flat_map child_entries ch) = flat_map (fun kc => okv (fun p => f (fst kc :: p)) (entries (snd kc))) ch.
  Proof. induction ch as [|[k c] ch IH]; [done|]. cbn [flat_map]. by rewrite okv_app, IH, okv_child. Qed.
  Lemma okv_vals f (vals : list A) : okv f (map (fun v => ([], v)) vals) = if f [] then vals else [].
  Proof. unfold okv. destruct (f []) eqn:E; induction vals as [|v vals IH]; cbn; rewrite ?E; try done; by rewrite IH. Qed.
  Lemma okv_node f ch vals : okv f (entries (Node ch vals)) = (if f [] then vals else []) ++ flat_map (fun kc => okv (fun p => f (fst kc :: p)) (entries (snd kc))) ch.
  Proof. cbn [entries]. rewrite okv_app, okv_vals. f_equal. apply okv_children. Qed.
  (** The landings carry what remains of every entry after [pending] subterms. *)
  Lemma skip_entries nd : forall f pending, flat_map (fun m => okv f (entries m)) (skip_subterm nd pending) =
    okv (fun p => match skipk pending p with Some p => f p | None => false end) (entries nd).
  Proof.
    induction nd as [ch vals IH] using node_ind'; intros f [|p].
    - cbn [skip_subterm flat_map]. rewrite app_nil_r. apply okv_ext. intros e _. by rewrite skipk_0.
    - rewrite okv_node. cbn [skipk]. cbn [app skip_subterm]. induction IH as [|[k c] ch Hc _ IHc]; [done|]. cbn [flat_map fst snd] in *.
      rewrite flat_map_app, Hc, IHc. done.
  Qed.
  Lemma get_none k (ch : list (key * node A)) : get k ch = None -> k ∉ map fst ch.
  Proof. induction ch as [|[k' c] ch IH]; cbn; [set_solver|]. destruct (decide (k = k')); [done|]. intros H. set_solver. Qed.
  Lemma get_some k (ch : list (key * node A)) c : get k ch = Some c -> (k, c) ∈ ch.
  Proof. induction ch as [|[k' c'] ch IH]; cbn; [done|]. destruct (decide (k = k')) as [<- |Hn]; [intros [= ->]; left|]. intros H. right. by apply IH. Qed.
  Lemma flat_none (g : key * node A -> list A) ch : (forall kc, kc ∈ ch -> g kc = []) -> flat_map g ch = [].
  Proof. induction ch as [|kc ch IH]; intros H; [done|]. cbn. rewrite (H kc) by left. apply IH. intros x Hx. apply H. by right. Qed.
  Lemma flat_two (g : key * node A -> list A) k1 k2 ch : k1 <> k2 -> NoDup (map fst ch) -> (forall k c, k <> k1 -> k <> k2 -> g (k, c) = []) ->
    flat_map g ch ≡ₚ (match get k1 ch with Some c => g (k1, c) | None => [] end) ++ (match get k2 ch with Some c => g (k2, c) | None => [] end).
  Proof.
    intros Hne Hd Hg. induction ch as [|[k c] ch IH]; [done|]. cbn [map fst flat_map get] in *. apply NoDup_cons in Hd as [Hk Hd]. specialize (IH Hd).
    destruct (decide (k1 = k)) as [<- |H1].
    - rewrite decide_False by done. rewrite IH. destruct (get k1 ch) as [c'|] eqn:E; [|done]. apply get_some in E. destruct Hk. apply elem_of_list_fmap. by exists (k1, c').
    - destruct (decide (k2 = k)) as [<- |H2].
      + rewrite IH. destruct (get k2 ch) as [c'|] eqn:E; [apply get_some in E; destruct Hk; apply elem_of_list_fmap; by exists (k2, c')|]. rewrite app_nil_r. apply Permutation_app_comm.
      + rewrite Hg by done. done.
  Qed.
End Trie.

(** ** The jump table *)
Lemma nth_error_lookup {A} (l : list A) i : l !! i = nth_error l i.
Proof. revert i; induction l as [|a l IH]; intros [|i]; cbn; auto. Qed.
Definition jump_ok (keys : list key) (jump : list nat) (j : nat) : Prop :=
  exists e rest, nth_error jump j = Some e /\ j < e <= length keys /\ skipk 1 (drop j keys) = Some rest /\ drop e keys = rest.
Lemma fill_ok t : forall n keys pre post jump, length (flat t) <= n -> keys = pre ++ flat t ++ post -> length jump = length keys ->
  exists jump', fill_jumps n keys (length pre) jump = Some (length pre + length (flat t), jump') /\ length jump' = length keys /\
    (forall j, j < length pre -> nth_error jump' j = nth_error jump j) /\
    (forall j, length pre <= j < length pre + length (flat t) -> jump_ok keys jump' j).
Proof.
  induction t as [s l IH|] using tr_ind'; intros n keys pre post jump Hn Hk Hj.
  - cbn [flat length] in Hn. destruct n as [|n]; [lia|]. cbn [fill_jumps].
    assert (Hnth : nth_error keys (length pre) = Some (KSym s (length l))).
    { rewrite Hk, nth_error_app2 by lia. by rewrite Nat.sub_diag. }
    rewrite Hnth. cbn [arity].
    assert (HL : forall l1 pre1 jump1, Forall (fun t => forall n keys pre post jump, length (flat t) <= n -> keys = pre ++ flat t ++ post -> length jump = length keys ->
        exists jump', fill_jumps n keys (length pre) jump = Some (length pre + length (flat t), jump') /\ length jump' = length keys /\
          (forall j, j < length pre -> nth_error jump' j = nth_error jump j) /\
          (forall j, length pre <= j < length pre + length (flat t) -> jump_ok keys jump' j)) l1 ->
      length (flat_map flat l1) <= n -> keys = pre1 ++ flat_map flat l1 ++ post -> length jump1 = length keys ->
      exists jump', (fix loop (m j : nat) (jump : list nat) : option (nat * list nat) :=
                   match m with
                   | O => Some (j, jump)
                   | S m => match fill_jumps n keys j jump with Some (j, jump) => loop m j jump | None => None end
                   end) (length l1) (length pre1) jump1 = Some (length pre1 + length (flat_map flat l1), jump') /\ length jump' = length keys /\
          (forall j, j < length pre1 -> nth_error jump' j = nth_error jump1 j) /\
          (forall j, length pre1 <= j < length pre1 + length (flat_map flat l1) -> jump_ok keys jump' j)).
    { induction l1 as [|a l1 IHl]; intros pre1 jump1 HF Hn1 Hk1 Hj1; cbn [length flat_map].
      - exists jump1. rewrite Nat.add_0_r. split; [done|]. split; [done|]. split; [done|]. intros j Hj'. lia.
      - apply Forall_cons in HF as [Ha HF]. cbn [flat_map] in Hn1, Hk1. rewrite app_length in Hn1 |- *. rewrite <- app_assoc in Hk1.
        destruct (Ha n keys pre1 (flat_map flat l1 ++ post) jump1) as (j1 & E1 & L1 & O1 & G1); try done; [lia|].
        rewrite E1. rewrite <- app_length.
        destruct (IHl (pre1 ++ flat a) j1 HF) as (j2 & E2 & L2 & O2 & G2); [lia|by rewrite <- app_assoc|done|].
        exists j2. split; [rewrite E2; do 2 f_equal; rewrite !app_length; lia|]. split; [done|]. rewrite app_length in O2, G2. split.
        + intros j Hj'. rewrite O2 by lia. apply O1. lia.
        + intros j Hj'. destruct (decide (j < length pre1 + length (flat a))) as [Hlt|Hge]; [|apply G2; lia].
          destruct (G1 j ltac:(lia)) as (e & rest & H1 & H2 & H3 & H4). exists e, rest. rewrite O2 by lia. done. }
    destruct (HL l (pre ++ [KSym s (length l)]) jump IH) as (j1 & E1 & L1 & O1 & G1); [lia|by rewrite <- app_assoc|done|].
    rewrite app_length in E1, O1, G1. cbn [length] in E1, O1, G1. replace (length pre + 1) with (S (length pre)) in E1, O1, G1 by lia.
    rewrite E1. cbn [flat length]. replace (length pre + S (length (flat_map flat l))) with (S (length pre) + length (flat_map flat l)) by lia.
    eexists. split; [done|]. split; [by rewrite insert_length|].
    assert (Hlk : length keys = length pre + S (length (flat_map flat l)) + length post).
    { rewrite Hk. rewrite !app_length. cbn [flat length]. lia. }
    split.
    + intros j Hj'. rewrite <- !nth_error_lookup. rewrite list_lookup_insert_ne by lia. rewrite !nth_error_lookup. apply O1. lia.
    + intros j Hj'. destruct (decide (j = length pre)) as [-> |Hne].
      * exists (S (length pre) + length (flat_map flat l)), post. split; [rewrite <- nth_error_lookup; apply list_lookup_insert; lia|]. split; [lia|].
        rewrite Hk. rewrite (drop_app (A:=key)). split; [apply (skipk_flat (TSym s l) 0 post) || (rewrite skipk_flat; apply skipk_0)|].
        rewrite app_assoc. replace (S (length pre) + length (flat_map flat l)) with (length (pre ++ flat (TSym s l))) by (rewrite app_length; cbn [flat length]; lia).
        apply drop_app.
      * destruct (G1 j ltac:(lia)) as (e & rest & H1 & H2 & H3 & H4). exists e, rest. split; [|done].
        rewrite <- nth_error_lookup in H1 |- *. by rewrite list_lookup_insert_ne by lia.
  - cbn [flat length] in *. destruct n as [|n]; [lia|]. cbn [fill_jumps].
    assert (Hnth : nth_error keys (length pre) = Some KStar).
    { rewrite Hk, nth_error_app2 by lia. by rewrite Nat.sub_diag. }
    rewrite Hnth. cbn [arity]. rewrite Nat.add_1_r. eexists. split; [done|]. split; [by rewrite insert_length|].
    assert (Hlk : length keys = S (length pre + length post)) by (rewrite Hk; rewrite !app_length; cbn [length]; lia).
    split.
    + intros j Hj'. rewrite <- !nth_error_lookup. by rewrite list_lookup_insert_ne by lia.
    + intros j Hj'. assert (j = length pre) as -> by lia. exists (S (length pre)), post.
      split; [rewrite <- nth_error_lookup; apply list_lookup_insert; lia|]. split; [lia|]. rewrite Hk. rewrite drop_app. split; [cbn; apply skipk_0|].
      rewrite app_assoc. replace (S (length pre)) with (length (pre ++ [KStar])) by (rewrite app_length; cbn; lia). apply drop_app.
Qed.
Lemma jumps_ok t n : length (flat t) <= n -> exists jump, subterm_jumps n (flat t) = Some jump /\ forall j, j < length (flat t) -> jump_ok (flat t) jump j.
Proof.
  intros Hn. destruct (fill_ok t n (flat t) [] [] (replicate (length (flat t)) 0) Hn) as (jump & H1 & _ & _ & H4).
  - by rewrite app_nil_r.
  - apply replicate_length.
  - exists jump. unfold subterm_jumps. cbn [length] in H1. rewrite H1. split; [done|]. intros j Hj. apply H4. cbn. lia.
Qed.

(** ** Retrieval *)
Lemma okv_stuck {A} (l : list (node A)) (F : node A -> option (list A)) (G : node A -> list A) : (forall m, m ∈ l -> exists r, F m = Some r /\ r ≡ₚ G m) ->
  exists r, fold_right (fun m r => oapp (F m) r) (Some []) l = Some r /\ r ≡ₚ flat_map G l.
Proof.
  induction l as [|m l IH]; intros H; [by exists []|]. destruct (H m) as (r1 & E1 & P1); [left|]. destruct IH as (r2 & E2 & P2); [intros x Hx; apply H; by right|].
  exists (r1 ++ r2). cbn. rewrite E1, E2. split; [done|]. by rewrite P1, P2.
Qed.
Lemma skip_wf {A} (nd : node A) : forall pending, wf nd -> Forall wf (skip_subterm nd pending).
Proof.
  induction nd as [ch vals IH] using node_ind'; intros [|p] Hw; [cbn [skip_subterm]; constructor; [exact Hw|constructor]|]. cbn [skip_subterm]. apply wf_node in Hw as [_ Hw].
  induction IH as [|kc ch Hc _ IHc]; cbn; [constructor|]. apply Forall_cons in Hw as [H1 H2]. apply Forall_app. split; [by apply Hc|by apply IHc].
Qed.
Lemma wf_get {A} (ch : list (key * node A)) vals k c : wf (Node ch vals) -> get k ch = Some c -> wf c.
Proof. intros Hw Hg. apply wf_node in Hw as [_ Hw]. apply get_some in Hg. rewrite Forall_forall in Hw. by apply (Hw (k, c)). Qed.
Lemma retrieve_ok {A} n : forall (nd : node A) keys jump i, wf nd -> i <= length keys -> length keys - i < n ->
  (forall j, j < length keys -> jump_ok keys jump j) ->
  exists r, retrieve n nd keys jump i = Some r /\ r ≡ₚ okv (fun p => alignk 0 p (drop i keys)) (entries nd).
Proof.
  induction n as [|n IH]; intros [ch vals] keys jump i Hw Hi Hn HJ; [lia|]. cbn [retrieve].
  destruct (Nat.eqb_spec i (length keys)) as [-> |Hne].
  - exists vals. split; [done|]. rewrite drop_all. rewrite okv_node. cbn [alignk]. rewrite flat_none; [by rewrite app_nil_r|]. intros [k c] _. apply okv_none. done.
  - destruct (nth_error keys i) as [k|] eqn:Ek; [|apply nth_error_None in Ek; lia]. rewrite <- nth_error_lookup in Ek.
    assert (Hd : drop i keys = k :: drop (S i) keys) by (by apply drop_S). rewrite Hd.
    destruct k as [s a|].
    + assert (H1 : exists r, (match get (KSym s a) ch with Some c => retrieve n c keys jump (S i) | None => Some [] end) = Some r /\
        r ≡ₚ match get (KSym s a) ch with Some c => okv (fun p => alignk 0 (KSym s a :: p) (KSym s a :: drop (S i) keys)) (entries c) | None => [] end).
      { destruct (get (KSym s a) ch) as [c|] eqn:E; [|by exists []]. destruct (IH c keys jump (S i)) as (r & Er & Pr); [by eapply wf_get|lia|lia|done|].
        exists r. split; [done|]. rewrite Pr. erewrite okv_ext; [done|]. intros e _. cbn [alignk]. by rewrite decide_True by done. }
      assert (H2 : exists r, (match get KStar ch with Some c => match nth_error jump i with Some j => retrieve n c keys jump j | None => None end | None => Some [] end) = Some r /\
        r ≡ₚ match get KStar ch with Some c => okv (fun p => alignk 0 (KStar :: p) (KSym s a :: drop (S i) keys)) (entries c) | None => [] end).
      { destruct (get KStar ch) as [c|] eqn:E; [|by exists []]. destruct (HJ i ltac:(lia)) as (e & rest & J1 & J2 & J3 & J4). rewrite J1.
        destruct (IH c keys jump e) as (r & Er & Pr); [by eapply wf_get|lia|lia|done|].
        exists r. split; [done|]. rewrite Pr. erewrite okv_ext; [done|]. intros x _. cbn [alignk]. rewrite decide_False by done. rewrite decide_True by done.
        symmetry. rewrite J4. apply alignk_skip. rewrite Hd in J3. exact J3. }
      destruct H1 as (r1 & E1 & P1), H2 as (r2 & E2 & P2). rewrite E1, E2. exists (r1 ++ r2). split; [done|]. rewrite okv_node. cbn [app]. rewrite P1, P2. symmetry.
      apply wf_node in Hw as [Hd' _].
      apply (flat_two (fun kc => okv (fun p => alignk 0 (fst kc :: p) (KSym s a :: drop (S i) keys)) (entries (snd kc))) (KSym s a) KStar ch); [done|done|].
      intros k c N1 N2. apply okv_none. intros e _. cbn [alignk fst]. by rewrite !decide_False by done.
    + destruct (okv_stuck (skip_subterm (Node ch vals) 1) (fun landing => retrieve n landing keys jump (S i)) (fun m => okv (fun p => alignk 0 p (drop (S i) keys)) (entries m))) as (r & Er & Pr).
      { intros m Hm. apply IH; [|lia|lia|done]. pose proof (skip_wf (Node ch vals) 1 Hw) as HF. rewrite Forall_forall in HF. by apply HF. }
      exists r. split; [exact Er|]. rewrite Pr, skip_entries. done.
Qed.
Lemma build_ok {A} (l : list (pattern * A)) : wf (build l) /\ entries (build l) ≡ₚ map (fun pv => (flatten (fst pv), snd pv)) l.
Proof.
  unfold build. assert (HG : forall nd : node A, wf nd -> wf (fold_left (fun nd pv => insert_pattern (fst pv) (snd pv) nd) l nd) /\
    entries (fold_left (fun nd pv => insert_pattern (fst pv) (snd pv) nd) l nd) ≡ₚ map (fun pv => (flatten (fst pv), snd pv)) l ++ entries nd).
  { induction l as [|[p v] l IH]; intros nd Hw; [done|]. cbn [fold_left fst snd map app]. unfold insert_pattern at 2 4.
    destruct (IH _ (insert_wf (flatten p) v nd Hw)) as [H1 H2]. split; [exact H1|]. etransitivity; [exact H2|]. rewrite insert_entries. symmetry. apply Permutation_middle. }
  destruct (HG empty_node) as [H1 H2]; [apply wf_node; split; constructor|]. split; [done|]. rewrite H2. cbn. by rewrite app_nil_r.
Qed.

Definition candidates_return {A} (nd : node A) (q : pattern) (r : list A) : Prop := returns (fun n => candidates n nd q) r.
(** Retrieval returns exactly the inserted patterns that may match the query, each as often as it was
    inserted. *)
Theorem C63_exact {A} (l : list (pattern * A)) q :
  exists r, candidates_return (build l) q r /\ r ≡ₚ map snd (List.filter (fun pv => may (fst pv) q) l).
Proof.
  destruct (build_ok l) as [Hw He].
  assert (HG : forall n, length (flatten q) < n -> exists r, candidates n (build l) q = Some r /\ r ≡ₚ okv (fun p => alignk 0 p (flatten q)) (entries (build l))).
  { intros n Hn. unfold candidates, candidates_keys. rewrite flat_pat in Hn |- *. destruct (jumps_ok (pat_tr q) n ltac:(lia)) as (jump & Ej & Hj). rewrite Ej.
    destruct (retrieve_ok n (build l) (flat (pat_tr q)) jump 0) as (r & Er & Pr); [done|lia|lia|done|]. exists r. rewrite drop_0 in Pr. done. }
  assert (HF : okv (fun p => alignk 0 p (flatten q)) (entries (build l)) ≡ₚ map snd (List.filter (fun pv => may (fst pv) q) l)).
  { rewrite (okv_perm _ _ _ He). clear Hw He HG. induction l as [|[p v] l IH]; [done|]. unfold okv in *. cbn [map omap list_omap fst snd List.filter].
    rewrite !flat_pat, align_may, tmay_pat. rewrite flat_pat in IH. destruct (may p q); cbn [map snd]; by rewrite IH. }
  assert (HM : forall n m r, candidates n (build l) q = Some r -> n <= m -> candidates m (build l) q = Some r).
  { clear. intros n m r H Hl. unfold candidates, candidates_keys, subterm_jumps in *.
    assert (HFJ : forall n m keys i jump r, fill_jumps n keys i jump = Some r -> n <= m -> fill_jumps m keys i jump = Some r).
    { clear. induction n as [|n IH]; intros [|m] keys i jump r H Hl; try done; [lia|]. cbn [fill_jumps] in *. destruct (nth_error keys i) as [k|]; [|done].
      assert (HLp : forall a j jump r, (fix loop (m j : nat) (jump : list nat) : option (nat * list nat) :=
                   match m with O => Some (j, jump) | S m => match fill_jumps n keys j jump with Some (j, jump) => loop m j jump | None => None end end) a j jump = Some r ->
                (fix loop (m' j : nat) (jump : list nat) : option (nat * list nat) :=
                   match m' with O => Some (j, jump) | S m' => match fill_jumps m keys j jump with Some (j, jump) => loop m' j jump | None => None end end) a j jump = Some r).
      { induction a as [|a IHa]; intros j jp r0 H0; [done|]. destruct (fill_jumps n keys j jp) as [[j' jp']|] eqn:E; [|done]. rewrite (IH m _ _ _ _ E) by lia. by apply IHa. }
      destruct ((fix loop (m j : nat) (jump : list nat) : option (nat * list nat) :=
                   match m with O => Some (j, jump) | S m => match fill_jumps n keys j jump with Some (j, jump) => loop m j jump | None => None end end) (arity k) (S i) jump) as [[e jp]|] eqn:E; [|done].
      by rewrite (HLp _ _ _ _ E). }
    destruct (fill_jumps n (flatten q) 0 _) as [[e jump]|] eqn:E; [|done]. rewrite (HFJ n m _ _ _ _ E Hl). clear E HFJ.
    revert H Hl. generalize (build l) 0. clear. revert m r. induction n as [|n IH]; intros [|m] r [ch vals] i H Hl; try done; [lia|]. cbn [retrieve] in *.
    destruct (Nat.eqb i (length (flatten q))); [done|]. destruct (nth_error (flatten q) i) as [[s a|]|]; [| |done].
    - destruct (get (KSym s a) ch) as [c1|] eqn:E1, (get KStar ch) as [c2|] eqn:E2;
        try (destruct (nth_error jump i) as [j|]; [|by (destruct (retrieve n c1 _ _ _)) || done]).
      + destruct (retrieve n c1 _ _ _) as [r1|] eqn:R1; [|done]. destruct (retrieve n c2 _ _ _) as [r2|] eqn:R2; [|done].
        by rewrite (IH m _ _ _ R1), (IH m _ _ _ R2) by lia.
      + destruct (retrieve n c1 _ _ _) as [r1|] eqn:R1; [|done]. by rewrite (IH m _ _ _ R1) by lia.
      + destruct (retrieve n c2 _ _ _) as [r2|] eqn:R2; [|done]. by rewrite (IH m _ _ _ R2) by lia.
      + done.
    - revert r H. generalize (skip_subterm (Node ch vals) 1). induction l as [|x l IHl]; intros r H; [done|]. cbn [fold_right] in *.
      destruct (retrieve n x _ _ _) as [r1|] eqn:R1; [|done]. rewrite (IH m _ _ _ R1) by lia.
      destruct (fold_right _ (Some []) l) as [r2|] eqn:R2; [|done]. by rewrite (IHl _ eq_refl). }
  destruct (HG (S (length (flatten q)))) as (r & Er & Pr); [lia|]. exists r. split; [|by rewrite Pr]. exists (S (length (flatten q))). intros m Hm. by apply (HM _ m) in Er.
Qed.
Example C63_exact_ex :
  let l := [(PExpr (EPred "p" [PVar "x"; PConst "a"] None), 1); (PExpr (EPred "p" [PConst "b"; PVar "x"] None), 2);
            (PExpr (EPred "q" [PVar "x"] None), 3); (PExpr (EPred "p" [PVar "y"; PVar "y"] None), 4)] in
  candidates 20 (build l) (PExpr (EPred "p" [PFun "f" [PConst "c"]; PConst "a"] None)) = Some [1; 4] /\
  may (PExpr (EPred "p" [PVar "y"; PVar "y"] None)) (PExpr (EPred "p" [PFun "f" [PConst "c"]; PConst "a"] None)) = true.
Proof. split; vm_compute; reflexivity. Qed.

Lemma may_refl_inst p B θ : may_term p (psub B θ p) = true.
Proof.
  induction p as [c|x|x|f l IH|l IH] using pterm_ind'; cbn [psub may_term].
  - apply String.eqb_refl.
  - done.
  - apply String.eqb_refl.
  - rewrite String.eqb_refl. cbn [andb]. induction IH as [|a l Ha _ IHl]; [done|]. cbn [map]. by rewrite Ha, IHl.
  - induction IH as [|a l Ha _ IHl]; [done|]. cbn [map]. by rewrite Ha, IHl.
Qed.
Lemma match_into_may B p t s s' : match_into B p t s = Some s' -> may_term p t = true.
Proof.
  intros H. pose proof (match_into_ok B p t s) as HG. rewrite H in HG. destruct HG as (_ & H1 & _).
  rewrite <- (H1 s' ltac:(done)). apply may_refl_inst.
Qed.
Lemma may_expr_refl e : may_expr e e = true.
Proof.
  assert (HT : forall t, may_term t t = true).
  { induction t as [c|x|x|f l IH|l IH] using pterm_ind'; cbn [may_term]; try apply String.eqb_refl; try done; rewrite ?String.eqb_refl; cbn [andb];
      induction IH as [|a l Ha _ IHl]; try done; by rewrite Ha, IHl. }
  induction e; cbn -[may_term]; rewrite ?String.eqb_refl, ?HT; try done. rewrite IHe1, IHe2. by destruct c.
Qed.
Lemma match_expr_may p : forall B t s s', match_expr_into B p t s = Some s' -> may_expr p t = true.
Proof.
  assert (HE : forall p t (s s' : subst), (if pexpr_eqb p t then Some s else None) = Some s' -> may_expr p t = true).
  { intros q t s0 s' H. destruct (pexpr_eqb q t) eqn:E; [|done]. apply pexpr_eqb_ok in E as ->. apply may_expr_refl. }
  induction p as [f l w|a b|a|c a IHa b IHb|a IHa|q z a IHa|o a IHa|o a IHa b IHb|j]; intros B t s s' H; destruct t as [g m v|a' b'|a'|c' a' b'|a'|q' z' a'|o' a'|o' a' b'|j']; cbn [match_expr_into] in H; try (by apply (HE _ _ s s')); try done.
  - destruct (String.eqb f g) eqn:E; cbn [andb] in H; [|done]. destruct (Nat.eqb _ _ && world_eqb _ _)%bool eqn:E2; [|done].
    apply match_into_may in H. cbn -[may_term]. by rewrite E, H.
  - destruct (match_into B a a' s) as [s1|] eqn:E; [|done]. apply match_into_may in E, H. cbn. by rewrite E, H.
  - destruct (conn_eqb c c') eqn:E; [|by apply (HE _ _ s s')]. destruct (match_expr_into B a a' s) as [s1|] eqn:E1; [|done].
    apply IHa in E1. apply IHb in H. cbn. by rewrite E, E1, H.
  - cbn. by apply (IHa _ _ _ _ H).
Qed.
(** Retrieval never misses: an inserted pattern that matches the query is among the candidates. *)
Theorem C63_never_miss {A} (l : list (pattern * A)) r v :
  (forall p t s, (PTerm p, v) ∈ l -> match_term_pattern p t = Some s -> candidates_return (build l) (PTerm t) r -> v ∈ r) /\
  (forall p t s, (PExpr p, v) ∈ l -> match_expr_pattern p t = Some s -> candidates_return (build l) (PExpr t) r -> v ∈ r).
Proof.
  assert (HD : forall q r', candidates_return (build l) q r -> candidates_return (build l) q r' -> r = r').
  { intros q r' [n Hn] [m Hm]. specialize (Hn (max n m) ltac:(lia)). specialize (Hm (max n m) ltac:(lia)). congruence. }
  assert (HM : forall p q, (p, v) ∈ l -> may p q = true -> candidates_return (build l) q r -> v ∈ r).
  { intros p q Hp Hm Hr. destruct (C63_exact l q) as (r' & Hr' & HP). rewrite (HD q r' Hr Hr'), HP. apply elem_of_list_fmap. exists (p, v). split; [done|].
    apply elem_of_list_In, List.filter_In. split; [by apply elem_of_list_In|done]. }
  split; intros p t s Hp H Hr; eapply HM; try done; cbn [may]; [by eapply match_into_may|by eapply match_expr_may].
Qed.
Example C63_never_miss_ex :
  let p := EBin CAnd (EPred "p" [PVar "x"] None) (EQuant QAll "y" (EPred "q" [PVar "y"; PVar "x"] None)) in
  let t := EBin CAnd (EPred "p" [PConst "a"] None) (EQuant QAll "y" (EPred "q" [PVar "y"; PConst "a"] None)) in
  match_expr_pattern p t = Some {["x" := PConst "a"]} /\ candidates 20 (build [(PExpr (ENot p), 1); (PExpr p, 2)]) (PExpr t) = Some [2].
Proof. split; [decided|vm_compute; reflexivity]. Qed.
(** The documentation's claim that term patterns and expression patterns never cross-match is false. *)
Theorem C63_cross_refuted : exists (l : list (pattern * nat)) e r, Forall (fun pv => exists t, fst pv = PTerm t) l /\ candidates_return (build l) (PExpr e) r /\ r <> [].
Proof.
  exists [(PTerm (PVar "x"), 1)], (EPred "p" [PConst "a"] None), [1]. split; [repeat constructor; by exists (PVar "x")|]. split; [|done].
  destruct (C63_exact [(PTerm (PVar "x"), 1)] (PExpr (EPred "p" [PConst "a"] None))) as (r & Hr & HP). cbn in HP. symmetry in HP. by apply Permutation_length_1_inv in HP as ->.
Qed.
