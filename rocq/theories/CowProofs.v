(** Proofs for C88. *)
From Coq Require Import ZArith List Bool Lia.
From stdpp Require Import gmap.
From Verif Require Import CowModel.

Lemma tree_ind2 (P : tree -> Prop) : (forall z, P (TNum z)) -> (forall ts, List.Forall P ts -> P (TList ts)) -> (forall fs, List.Forall (fun p => P (snd p)) fs -> P (TStruct fs)) -> forall t, P t.
Proof.
  intros H1 H2 H3. fix IH 1. intros [z|ts|fs]; [apply H1|apply H2|apply H3].
  - induction ts as [|t ts IHts]; constructor; [apply IH|apply IHts].
  - induction fs as [|t fs IHts]; constructor; [apply IH|apply IHts].
Qed.
(** [v] stands for [t] in [h]. *)
Fixpoint den (h : heap) (t : tree) (v : val) : Prop :=
  match t with
  | TNum z => v = VNum z
  | TList ts => exists l vs, v = VRef l /\ h !! l = Some vs /\ (fix go ts vs := match ts, vs with [], [] => True | t :: ts, v :: vs => den h t v /\ go ts vs | _, _ => False end) ts vs
  | TStruct fs => exists gs, v = VStruct gs /\ (fix go (fs : list (nat * tree)) (gs : list (nat * val)) := match fs, gs with [], [] => True | p :: fs, q :: gs => (fst p = fst q /\ den h (snd p) (snd q)) /\ go fs gs | _, _ => False end) fs gs
  end.
Definition den_field (h : heap) (p : nat * tree) (q : nat * val) : Prop := fst p = fst q /\ den h (snd p) (snd q).
Lemma den_list h ts v : den h (TList ts) v <-> exists l vs, v = VRef l /\ h !! l = Some vs /\ Forall2 (den h) ts vs.
Proof.
  cbn [den]. assert (E : forall vs, (fix go ts vs := match ts, vs with [], [] => True | t :: ts, v :: vs => den h t v /\ go ts vs | _, _ => False end) ts vs <-> Forall2 (den h) ts vs).
  { induction ts as [|t ts IH]; intros [|w vs]; try (split; [done|intros H; inversion H]); [split; constructor|]. rewrite IH. split; [intros [? ?]; now constructor|intros H; inversion H; done]. }
  split; intros (l & vs & ? & ? & ?); exists l, vs; (split; [done|]; split; [done|]; now apply E).
Qed.
Lemma den_struct h fs v : den h (TStruct fs) v <-> exists gs, v = VStruct gs /\ Forall2 (den_field h) fs gs.
Proof.
  cbn [den]. assert (E : forall gs, (fix go (fs : list (nat * tree)) (gs : list (nat * val)) := match fs, gs with [], [] => True | p :: fs, q :: gs => (fst p = fst q /\ den h (snd p) (snd q)) /\ go fs gs | _, _ => False end) fs gs <-> Forall2 (den_field h) fs gs).
  { induction fs as [|t fs IH]; intros [|w gs]; try (split; [done|intros H; inversion H]); [split; constructor|]. rewrite IH. split; [intros [? ?]; now constructor|intros H; inversion H; done]. }
  split; intros (gs & ? & ?); exists gs; (split; [done|]; now apply E).
Qed.
Lemma occ_struct l fs : occ l (VStruct fs) = occs l (map snd fs).
Proof. cbn [occ]. unfold occs. induction fs as [|p fs IH]; [done|]. cbn [map list_sum fold_right]. rewrite IH. done. Qed.
Lemma occs_zero l vs : occs l vs = 0 <-> List.Forall (fun v => occ l v = 0) vs.
Proof.
  unfold occs. induction vs as [|v vs IH]; [split; [constructor|done]|]. cbn [map list_sum fold_right]. rewrite List.Forall_cons_iff, <- IH. unfold list_sum. lia.
Qed.
(** ** Frames *)
Lemma Forall2_In {A B} (P Q : A -> B -> Prop) l r : Forall2 P l r -> (forall a b, In a l -> In b r -> P a b -> Q a b) -> Forall2 Q l r.
Proof. induction 1 as [|a b l r Hab _ IH]; intros H; constructor; [apply H; [now left|now left|done]|]. apply IH. intros x y Hx Hy. apply H; now right. Qed.
Lemma den_frame h h' (D : nat -> Prop) : (forall l, ~ D l -> h' !! l = h !! l) -> (forall l l' vs, D l -> h !! l' = Some vs -> occs l vs = 0) ->
  forall t v, (forall l, D l -> occ l v = 0) -> den h t v -> den h' t v.
Proof.
  intros H1 H2. apply (tree_ind2 (fun t => forall v, (forall l, D l -> occ l v = 0) -> den h t v -> den h' t v)); [done| |].
  - intros ts IH v Hv Hd. apply den_list in Hd as (l & vs & -> & E & F). apply den_list. exists l, vs. split; [done|]. split.
    + rewrite H1; [done|]. intros Dl. specialize (Hv l Dl). cbn in Hv. rewrite Nat.eqb_refl in Hv. done.
    + rewrite List.Forall_forall in IH. eapply Forall2_In; [exact F|]. intros t w Ht Hw Hd. apply IH; [done| |done]. intros l' Dl'. specialize (H2 l' l vs Dl' E). apply occs_zero in H2. rewrite List.Forall_forall in H2. now apply H2.
  - intros fs IH v Hv Hd. apply den_struct in Hd as (gs & -> & F). apply den_struct. exists gs. split; [done|]. rewrite List.Forall_forall in IH. eapply Forall2_In; [exact F|]. intros p q Hp Hq [E Hd]. split; [done|]. apply IH; [done| |done].
    intros l' Dl'. specialize (Hv l' Dl'). rewrite occ_struct in Hv. apply occs_zero in Hv. rewrite List.Forall_forall in Hv. apply Hv. now apply in_map.
Qed.
Definition below (nx : nat) (v : val) : Prop := forall l, nx <= l -> occ l v = 0.
Definition bounded (h : heap) (nx : nat) : Prop := (forall l, is_Some (h !! l) -> l < nx) /\ forall l vs, h !! l = Some vs -> List.Forall (below nx) vs.
Definition grown (h : heap) (nx : nat) (h' : heap) (nx' : nat) : Prop := nx <= nx' /\ (forall l, l < nx -> h' !! l = h !! l) /\ bounded h' nx'.
Lemma below_mono nx nx' v : nx <= nx' -> below nx v -> below nx' v.
Proof. intros L H l Hl. apply H. lia. Qed.
Lemma below_struct nx fs : below nx (VStruct fs) <-> List.Forall (fun p => below nx (snd p)) fs.
Proof.
  unfold below. split.
  - intros H. apply List.Forall_forall. intros p Hp l Hl. specialize (H l Hl). rewrite occ_struct in H. apply occs_zero in H. rewrite List.Forall_forall in H. apply H. now apply in_map.
  - intros H l Hl. rewrite occ_struct. apply occs_zero. apply List.Forall_forall. intros v Hv. apply in_map_iff in Hv as (p & <- & Hp). rewrite List.Forall_forall in H. now apply H.
Qed.
Lemma den_grown h nx h' nx' t v : bounded h nx -> grown h nx h' nx' -> below nx v -> den h t v -> den h' t v.
Proof.
  intros [B1 B2] (G1 & G2 & G3) Bv. apply (den_frame h h' (fun l => nx <= l)); [intros l Hl; apply G2; lia| |exact Bv]. intros l l' vs Hl E. apply occs_zero. eapply List.Forall_impl; [|exact (B2 _ _ E)]. intros w Hw. now apply Hw.
Qed.
Lemma grown_refl h nx : bounded h nx -> grown h nx h nx.
Proof. intros B. split; [lia|]. split; [done|done]. Qed.
Lemma grown_trans h nx h1 nx1 h2 nx2 : grown h nx h1 nx1 -> grown h1 nx1 h2 nx2 -> grown h nx h2 nx2.
Proof. intros (A1 & A2 & A3) (B1 & B2 & B3). split; [lia|]. split; [|done]. intros l Hl. rewrite B2 by lia. now apply A2. Qed.
Lemma grown_cell h nx vs : bounded h nx -> List.Forall (below nx) vs -> grown h nx (<[nx := vs]> h) (S nx).
Proof.
  intros [B1 B2] Bv. split; [lia|]. split; [intros l Hl; apply lookup_insert_ne; lia|]. split.
  - intros l. rewrite lookup_insert_is_Some. intros [->|[_ H]]; [lia|]. specialize (B1 l H). lia.
  - intros l ws. rewrite lookup_insert_Some. intros [[<- <-]|[_ E]]; [|specialize (B2 l ws E)]; (eapply List.Forall_impl; [|eassumption]); intros w Hw; apply (below_mono nx); auto.
Qed.
Lemma Forall2_grown h nx h' nx' ts vs : bounded h nx -> grown h nx h' nx' -> List.Forall (below nx) vs -> Forall2 (den h) ts vs -> Forall2 (den h') ts vs.
Proof. intros B G F D. rewrite List.Forall_forall in F. eapply Forall2_In; [exact D|]. intros t v _ Hv Hd. eapply den_grown; eauto. Qed.
Lemma Forall_below_mono nx nx' vs : nx <= nx' -> List.Forall (below nx) vs -> List.Forall (below nx') vs.
Proof. intros L. apply List.Forall_impl. intros v. now apply below_mono. Qed.

(** ** Deep copies *)
Definition deep_all (n : nat) := fix all (h : heap) (nx : nat) (vs : list val) : out (list val * heap * nat) :=
      match vs with
      | [] => Ok ([], h, nx)
      | v :: vs => obind (deep n h nx v) (fun '(w, h1, nx1) => obind (all h1 nx1 vs) (fun '(ws, h2, nx2) => Ok (w :: ws, h2, nx2)))
      end.
Definition eventually {A} (f : nat -> A) (a : A) : Prop := exists n0, forall n, n0 <= n -> f n = a.
Definition lone (h : heap) (l : nat) : Prop := forall l' vs, h !! l' = Some vs -> occs l vs = 0.
Definition deep_spec (t : tree) : Prop := forall h nx v, bounded h nx -> below nx v -> den h t v ->
  exists v' h' nx', eventually (fun n => deep n h nx v) (Ok (v', h', nx')) /\ grown h nx h' nx' /\ den h' t v' /\ below nx' v' /\ (forall l, v = VRef l -> exists l', v' = VRef l' /\ nx <= l' /\ lone h' l').
Lemma deep_all_ok ts : List.Forall deep_spec ts -> forall h nx vs, bounded h nx -> List.Forall (below nx) vs -> Forall2 (den h) ts vs ->
  exists ws h' nx', eventually (fun n => deep_all n h nx vs) (Ok (ws, h', nx')) /\ grown h nx h' nx' /\ Forall2 (den h') ts ws /\ List.Forall (below nx') ws.
Proof.
  induction 1 as [|t ts Ht _ IH]; intros h nx vs B Bv F.
  - inversion F; subst. exists [], h, nx. split; [exists 0; done|]. split; [now apply grown_refl|]. split; constructor.
  - inversion F as [|? v ? vs' Dv F']; subst. apply List.Forall_cons_iff in Bv as [Bv Bvs]. destruct (Ht h nx v B Bv Dv) as (w & h1 & nx1 & (n1 & E1) & G1 & D1 & B1 & _). pose proof G1 as (L1 & _ & B1').
    destruct (IH h1 nx1 vs' B1' (Forall_below_mono _ _ _ L1 Bvs) (Forall2_grown _ _ _ _ _ _ B G1 Bvs F')) as (ws & h2 & nx2 & (n2 & E2) & G2 & D2 & B2).
    exists (w :: ws), h2, nx2. split; [exists (max n1 n2); intros n Hn; cbn [deep_all]; rewrite E1 by lia; cbn; change ((fix all (h : heap) (nx : nat) (vs : list val) {struct vs} := _) h1 nx1 vs') with (deep_all n h1 nx1 vs'); rewrite E2 by lia; done|].
    split; [eapply grown_trans; eauto|]. split; [constructor; [eapply den_grown; eauto|done]|]. constructor; [apply (below_mono nx1); [apply G2|done]|done].
Qed.
Lemma Forall2_fields h fs gs : Forall2 (den_field h) fs gs <-> map fst fs = map fst gs /\ Forall2 (den h) (map snd fs) (map snd gs).
Proof.
  split.
  - induction 1 as [|p q fs gs [E D] _ [IH1 IH2]]; [split; [done|constructor]|]. cbn. split; [congruence|now constructor].
  - revert gs. induction fs as [|p fs IH]; intros [|q gs] [E F]; try done. cbn in E, F. injection E as E1 E2. inversion F; subst. constructor; [done|]. apply IH. done.
Qed.
Lemma combine_fst {A B} (l : list A) (r : list B) : length l = length r -> map fst (combine l r) = l /\ map snd (combine l r) = r.
Proof. revert r. induction l as [|a l IH]; intros [|b r] E; try done. cbn in *. injection E as E. destruct (IH r E) as [-> ->]. done. Qed.
Lemma deep_ok t : deep_spec t.
Proof.
  induction t as [z|ts IH|fs IH] using tree_ind2; intros h nx v B Bv D.
  - cbn in D. subst v. exists (VNum z), h, nx. split; [exists 1; intros [|n] Hn; [lia|done]|]. split; [now apply grown_refl|]. done.
  - apply den_list in D as (l & vs & -> & E & F). destruct (deep_all_ok ts IH h nx vs B (proj2 B l vs E) F) as (ws & h1 & nx1 & (n1 & E1) & G1 & D1 & B1). pose proof (grown_cell h1 nx1 ws (proj2 (proj2 G1)) B1) as G2.
    exists (VRef nx1), (<[nx1 := ws]> h1), (S nx1). split; [exists (S n1); intros [|n] Hn; [lia|]; cbn [deep]; rewrite E; change ((fix all (h : heap) (nx : nat) (vs : list val) {struct vs} := _) h nx vs) with (deep_all n h nx vs); rewrite E1 by lia; done|].
    split; [eapply grown_trans; eauto|]. split; [apply den_list; exists nx1, ws; split; [done|]; split; [apply lookup_insert|]; exact (Forall2_grown h1 nx1 _ _ ts ws (proj2 (proj2 G1)) G2 B1 D1)|].
    split; [intros l' Hl'; cbn; destruct (Nat.eqb_spec l' nx1); [lia|done]|]. intros l0 _. exists nx1. split; [done|]. split; [apply G1|]. intros l' us. rewrite lookup_insert_Some. destruct G1 as (_ & _ & B1').
    intros [[_ <-]|[_ E']]; apply occs_zero; (eapply List.Forall_impl; [|first [exact B1|exact (proj2 B1' _ _ E')]]); intros w Hw; apply Hw; lia.
  - apply den_struct in D as (gs & -> & F). apply Forall2_fields in F as [Ef F]. apply below_struct in Bv. assert (Bv' : List.Forall (below nx) (map snd gs)) by now apply List.Forall_map.
    assert (IH' : List.Forall deep_spec (map snd fs)) by now apply List.Forall_map. destruct (deep_all_ok (map snd fs) IH' h nx (map snd gs) B Bv' F) as (ws & h1 & nx1 & (n1 & E1) & G1 & D1 & B1).
    pose proof (Forall2_length _ _ _ D1) as Len. assert (Len' : length (map fst gs) = length ws) by (rewrite <- Ef, <- Len, !map_length; done). destruct (combine_fst _ _ Len') as [C1 C2].
    exists (VStruct (combine (map fst gs) ws)), h1, nx1. split; [exists (S n1); intros [|n] Hn; [lia|]; cbn [deep]; change ((fix all (h : heap) (nx : nat) (vs : list val) {struct vs} := _) h nx (map snd gs)) with (deep_all n h nx (map snd gs)); rewrite E1 by lia; done|].
    split; [done|]. split; [apply den_struct; eexists; split; [reflexivity|]; apply Forall2_fields; rewrite C1, C2; done|]. split; [|done]. apply below_struct. rewrite <- (List.Forall_map snd (below nx1)). rewrite C2. done.
Qed.
Lemma mapM_ok h ts vs : List.Forall (fun t => forall v, den h t v -> eventually (fun n => read n h v) (Some t)) ts -> Forall2 (den h) ts vs -> eventually (fun n => mapM (read n h) vs) (Some ts).
Proof.
  intros H F. induction F as [|t v ts vs D _ IH]; [exists 0; done|]. apply List.Forall_cons_iff in H as [Ht H]. destruct (Ht v D) as (n1 & E1). destruct (IH H) as (n2 & E2). exists (max n1 n2). intros n Hn. cbn. rewrite E1 by lia. cbn. change (mapM (read n h) vs) with (mapM (read n h) vs). rewrite E2 by lia. done.
Qed.
Lemma read_ok h t : forall v, den h t v -> eventually (fun n => read n h v) (Some t).
Proof.
  induction t as [z|ts IH|fs IH] using tree_ind2; intros v D.
  - cbn in D. subst v. exists 1. intros [|n] Hn; [lia|done].
  - apply den_list in D as (l & vs & -> & E & F). destruct (mapM_ok h ts vs IH F) as (n1 & E1). exists (S n1). intros [|n] Hn; [lia|]. cbn [read]. rewrite E. cbn. rewrite E1 by lia. done.
  - apply den_struct in D as (gs & -> & F). apply Forall2_fields in F as [Ef F]. assert (IH' : List.Forall (fun t => forall v, den h t v -> eventually (fun n => read n h v) (Some t)) (map snd fs)) by now apply List.Forall_map.
    destruct (mapM_ok h _ _ IH' F) as (n1 & E1). exists (S n1). intros [|n] Hn; [lia|]. cbn [read]. rewrite E1 by lia. cbn. rewrite <- Ef. do 2 f_equal. clear. induction fs as [|[f t] fs IH]; [done|]. cbn. now rewrite IH.
Qed.

(** ** The state *)
Definition inv (h : heap) (nx : nat) (env : venv) (tenv : gmap nat tree) : Prop :=
  bounded h nx /\ forall x, match env !! x, tenv !! x with Some v, Some t => den h t v /\ below nx v | None, None => True | _, _ => False end.
Lemma inv_grown h nx h' nx' env tenv : inv h nx env tenv -> grown h nx h' nx' -> inv h' nx' env tenv.
Proof.
  intros [B H] G. split; [apply G|]. intros x. specialize (H x). destruct (env !! x) as [v|], (tenv !! x) as [t|]; try done. destruct H as [D Bv]. split; [eapply den_grown; eauto|]. apply (below_mono nx); [apply G|done].
Qed.
Lemma inv_set h nx env tenv x v t : inv h nx env tenv -> den h t v -> below nx v -> inv h nx (<[x := v]> env) (<[x := t]> tenv).
Proof.
  intros [B H] D Bv. split; [done|]. intros y. destruct (decide (x = y)) as [->|N]; [rewrite !lookup_insert; done|]. rewrite !lookup_insert_ne by done. apply H.
Qed.
Lemma inv_some h nx env tenv x v : inv h nx env tenv -> env !! x = Some v -> exists t, tenv !! x = Some t /\ den h t v /\ below nx v.
Proof. intros [_ H] E. specialize (H x). rewrite E in H. destruct (tenv !! x) as [t|]; [|done]. eauto. Qed.
Lemma inv_none h nx env tenv x : inv h nx env tenv -> env !! x = None -> tenv !! x = None.
Proof. intros [_ H] E. specialize (H x). rewrite E in H. destruct (tenv !! x) as [t|]; done. Qed.
Lemma field_ok h f fs gs : Forall2 (den_field h) fs gs -> match field f fs, field f gs with Some t, Some v => den h t v /\ In v (map snd gs) | None, None => True | _, _ => False end.
Proof.
  induction 1 as [|[g t] [g' v] fs gs [E D] _ IH]; [done|]. cbn in E, D. subst g'. cbn [field]. destruct (Nat.eqb g f); [split; [done|now left]|]. destruct (field f fs), (field f gs); try done. destruct IH as [? ?]. split; [done|now right].
Qed.
Lemma vars_ok h nx env tenv fs : inv h nx env tenv -> match vars env fs, vars tenv fs with Some vs, Some ts => Forall2 (den_field h) ts vs /\ List.Forall (fun p => below nx (snd p)) vs | None, None => True | _, _ => False end.
Proof.
  intros I. unfold vars. induction fs as [|[f x] fs IH]; [cbn; split; constructor|]. cbn. destruct (env !! x) as [v|] eqn:E.
  - destruct (inv_some _ _ _ _ _ _ I E) as (t & -> & D & B). cbn. destruct (mapM _ fs) as [vs|], (mapM _ fs) as [ts|]; cbn; try done. destruct IH as [? ?]. split; constructor; done.
  - rewrite (inv_none _ _ _ _ _ I E). done.
Qed.
(** Evaluation. *)
Definition evaluates (h : heap) (nx : nat) (env : venv) (tenv : gmap nat tree) (e : expr) : Prop :=
  match teval tenv e with
  | Some t => exists v h' nx', eventually (fun n => eval n h nx env e) (Ok (v, h', nx')) /\ grown h nx h' nx' /\ den h' t v /\ below nx' v
  | None => eventually (fun n => eval n h nx env e) Err
  end.
Lemma eval_ok h nx env tenv e : inv h nx env tenv -> evaluates h nx env tenv e.
Proof.
  intros I. pose proof (proj1 I) as B. unfold evaluates. induction e as [x|z| |e IH i|e IH f|fs|e IH]; cbn [teval].
  - destruct (env !! x) as [v|] eqn:E.
    + destruct (inv_some _ _ _ _ _ _ I E) as (t & -> & D & Bv). exists v, h, nx. split; [exists 0; intros n _; cbn [eval]; rewrite E; done|]. split; [now apply grown_refl|]. done.
    + rewrite (inv_none _ _ _ _ _ I E). exists 0. intros n _. cbn [eval]. rewrite E. done.
  - exists (VNum z), h, nx. split; [exists 0; done|]. split; [now apply grown_refl|]. done.
  - exists (VRef nx), (<[nx := []]> h), (S nx). split; [exists 0; done|]. split; [apply grown_cell; [done|constructor]|]. split; [apply den_list; exists nx, []; split; [done|]; split; [apply lookup_insert|constructor]|]. intros l Hl. cbn. destruct (Nat.eqb_spec l nx); [lia|done].
  - destruct (teval tenv e) as [t|]; cbn [mbind option_bind].
    + destruct IH as (v & h1 & nx1 & (n1 & E1) & G1 & D1 & B1). destruct t as [z|ts|fs].
      * cbn in D1. subst v. exists n1. intros n Hn. cbn [eval]. rewrite E1 by done. done.
      * apply den_list in D1 as (l & vs & -> & El & F). pose proof (Forall2_length _ _ _ F) as Len. destruct (resolve i (length ts)) as [k|] eqn:R; cbn [mbind option_bind].
        -- destruct (ts !! k) as [t|] eqn:Et.
           ++ destruct (Forall2_lookup_l _ _ _ _ _ F Et) as (w & Ew & Dw). exists w, h1, nx1. split; [exists n1; intros n Hn; cbn [eval]; rewrite E1 by done; cbn; rewrite El, <- Len, R, Ew; done|]. split; [done|]. split; [done|].
              destruct G1 as (_ & _ & [_ B2]). specialize (B2 _ _ El). rewrite List.Forall_forall in B2. apply B2. apply elem_of_list_In. eapply elem_of_list_lookup_2; eauto.
           ++ exists n1. intros n Hn. cbn [eval]. rewrite E1 by done. cbn. rewrite El, <- Len, R. destruct (vs !! k) eqn:Ew; [|done]. apply lookup_lt_Some in Ew. apply lookup_ge_None in Et. lia.
        -- exists n1. intros n Hn. cbn [eval]. rewrite E1 by done. cbn. rewrite El, <- Len, R. done.
      * apply den_struct in D1 as (gs & -> & F). exists n1. intros n Hn. cbn [eval]. rewrite E1 by done. done.
    + destruct IH as (n1 & E1). exists n1. intros n Hn. cbn [eval]. rewrite E1 by done. done.
  - destruct (teval tenv e) as [t|]; cbn [mbind option_bind].
    + destruct IH as (v & h1 & nx1 & (n1 & E1) & G1 & D1 & B1). destruct t as [z|ts|fs].
      * cbn in D1. subst v. exists n1. intros n Hn. cbn [eval]. rewrite E1 by done. done.
      * apply den_list in D1 as (l & vs & -> & El & F). exists n1. intros n Hn. cbn [eval]. rewrite E1 by done. done.
      * apply den_struct in D1 as (gs & -> & F). pose proof (field_ok h1 f fs gs F) as K. destruct (field f fs) as [t|], (field f gs) as [w|] eqn:Eg; try done.
        -- destruct K as [Dw Iw]. exists w, h1, nx1. split; [exists n1; intros n Hn; cbn [eval]; rewrite E1 by done; cbn; rewrite Eg; done|]. split; [done|]. split; [done|]. apply below_struct in B1. rewrite List.Forall_forall in B1. apply in_map_iff in Iw as (p & <- & Ip). now apply B1.
        -- exists n1. intros n Hn. cbn [eval]. rewrite E1 by done. cbn. rewrite Eg. done.
    + destruct IH as (n1 & E1). exists n1. intros n Hn. cbn [eval]. rewrite E1 by done. done.
  - pose proof (vars_ok h nx env tenv fs I) as K. destruct (vars env fs) as [vs|] eqn:E1, (vars tenv fs) as [ts|]; try done; cbn [mbind option_bind].
    + destruct K as [F Bf]. exists (VStruct vs), h, nx. split; [exists 0; intros n _; cbn [eval]; rewrite E1; done|]. split; [now apply grown_refl|]. split; [apply den_struct; eauto|now apply below_struct].
    + exists 0. intros n _. cbn [eval]. rewrite E1. done.
  - destruct (teval tenv e) as [t|].
    + destruct IH as (v & h1 & nx1 & (n1 & E1) & G1 & D1 & B1). destruct (deep_ok t h1 nx1 v (proj2 (proj2 G1)) B1 D1) as (w & h2 & nx2 & (n2 & E2) & G2 & D2 & B2 & _). exists w, h2, nx2.
      split; [exists (max n1 n2); intros n Hn; cbn [eval]; rewrite E1 by lia; cbn; apply E2; lia|]. split; [eapply grown_trans; eauto|]. done.
    + destruct IH as (n1 & E1). exists n1. intros n Hn. cbn [eval]. rewrite E1 by done. done.
Qed.

(** ** Owning a list *)
Lemma sum_zero {A} (f : A -> nat) l : list_sum (map f l) = 0 <-> forall a, In a l -> f a = 0.
Proof. induction l as [|a l IH]; [split; [intros _ a []|done]|]. unfold list_sum in *. cbn [map fold_right]. split; [intros H b [<-|Hb]; [lia|]; apply IH; [lia|done]|]. intros H. rewrite (H a (or_introl eq_refl)). apply IH. intros b Hb. apply H. now right. Qed.
Lemma sum_perm l r : Permutation l r -> list_sum l = list_sum r.
Proof. unfold list_sum. induction 1; cbn; lia. Qed.
Lemma env_sum (f : val -> nat) (env : venv) x v : env !! x = Some v -> list_sum (map (fun p => f (snd p)) (map_to_list env)) = f v + list_sum (map (fun p => f (snd p)) (map_to_list (delete x env))).
Proof.
  intros E. rewrite <- (insert_delete env x v E) at 1. rewrite (sum_perm _ ((fun p => f (snd p)) (x, v) :: map (fun p => f (snd p)) (map_to_list (delete x env)))); [done|]. apply (Permutation_map (fun p : nat * val => f (snd p)) (l' := (x, v) :: map_to_list (delete x env))). apply map_to_list_insert. apply lookup_delete.
Qed.
Definition alone (h : heap) (env : venv) (temps : list val) (x l : nat) : Prop := lone h l /\ (forall y v, y <> x -> env !! y = Some v -> occ l v = 0) /\ occs l temps = 0.
Lemma count_alone h env temps x l : env !! x = Some (VRef l) -> strong_count l h env temps <= 1 -> alone h env temps x l.
Proof.
  intros E H. unfold strong_count in H. rewrite (env_sum (occ l) env x (VRef l) E) in H. assert (O : occ l (VRef l) = 1) by (cbn; rewrite Nat.eqb_refl; done). rewrite O in H.
  assert (S1 : list_sum (map (fun p => occs l (snd p)) (map_to_list h)) = 0) by lia. assert (S2 : list_sum (map (fun p => occ l (snd p)) (map_to_list (delete x env))) = 0) by lia. split; [|split; [|lia]].
  - intros l' vs El. apply (proj1 (sum_zero (fun p => occs l (snd p)) _) S1 (l', vs)). apply elem_of_list_In, elem_of_map_to_list. done.
  - intros y v N Ey. apply (proj1 (sum_zero (fun p => occ l (snd p)) _) S2 (y, v)). apply elem_of_list_In, elem_of_map_to_list. rewrite lookup_delete_ne by done. done.
Qed.
Lemma ensure_ok h nx env tenv temps x l : inv h nx env tenv -> List.Forall (below nx) temps -> env !! x = Some (VRef l) ->
  exists h' nx' l', eventually (fun n => ensure_owned true n h nx env temps x) (Ok (h', nx', <[x := VRef l']> env)) /\ grown h nx h' nx' /\ inv h' nx' (<[x := VRef l']> env) tenv /\ alone h' env temps x l'.
Proof.
  intros I Bt E. destruct (inv_some _ _ _ _ _ _ I E) as (t & Et & D & Bv). unfold ensure_owned. cbn [andb]. destruct (Nat.ltb_spec 1 (strong_count l h env temps)) as [C|C].
  - destruct (deep_ok t h nx (VRef l) (proj1 I) Bv D) as (v' & h' & nx' & (n0 & En) & G & D' & B' & O). destruct (O l eq_refl) as (l' & -> & Ll & Lo). exists h', nx', l'. split; [exists n0; intros n Hn; rewrite E; destruct (Nat.ltb_spec 1 (strong_count l h env temps)); [|lia]; rewrite En by done; done|].
    split; [done|]. split; [|split; [done|split]].
    + assert (T : tenv = <[x := t]> tenv) by (symmetry; now apply insert_id). rewrite T. apply inv_set; [eapply inv_grown; eauto|done|done].
    + intros y v _ Ey. destruct (inv_some _ _ _ _ _ _ I Ey) as (? & _ & _ & By). now apply By.
    + apply occs_zero. eapply List.Forall_impl; [|exact Bt]. intros w Hw. now apply Hw.
  - exists h, nx, l. rewrite insert_id by done. split; [exists 0; intros n _; rewrite E; destruct (Nat.ltb_spec 1 (strong_count l h env temps)); [lia|done]|]. split; [apply grown_refl, I|]. split; [done|]. now apply count_alone.
Qed.
(** [f] and [tf] do the same to a list, and put nothing new in it but the values in hand. *)
Definition same_change (temps : list val) (tts : list tree) (f : list val -> option (list val * option val)) (tf : list tree -> option (list tree * option tree)) : Prop :=
  forall h vs ts, Forall2 (den h) ts vs -> Forall2 (den h) tts temps ->
  match f vs, tf ts with
  | Some (ws, r), Some (us, q) => Forall2 (den h) us ws /\ Forall2 (den h) (option_list q) (option_list r) /\ forall w, In w ws \/ r = Some w -> In w vs \/ In w temps \/ w = VNum 0
  | None, None => True | _, _ => False
  end.
Lemma change_var_ok h nx env tenv temps tts x f tf : inv h nx env tenv -> List.Forall (below nx) temps -> Forall2 (den h) tts temps -> same_change temps tts f tf ->
  match tenv !! x ≫= (fun c => tchange c tf) with
  | Some (c, q) => exists h' nx' env' r, eventually (fun n => change_var true n h nx env temps x f) (Ok (h', nx', env', r)) /\ inv h' nx' env' (<[x := c]> tenv) /\ Forall2 (den h') (option_list q) (option_list r) /\ List.Forall (below nx') (option_list r)
  | None => eventually (fun n => change_var true n h nx env temps x f) Err
  end.
Proof.
  intros I Bt Dt SC. unfold change_var. destruct (env !! x) as [v|] eqn:E.
  - destruct (inv_some _ _ _ _ _ _ I E) as (t & -> & D & Bv). cbn [mbind option_bind]. destruct t as [z|ts|fs]; cbn [tchange].
    + cbn in D. subst v. exists 0. intros n _. unfold ensure_owned. rewrite E. cbn. rewrite E. done.
    + pose proof D as D0. apply den_list in D as (l & vs & -> & El & F). destruct (ensure_ok h nx env tenv temps x l I Bt E) as (h1 & nx1 & l1 & (n1 & E1) & G1 & I1 & A1).
      destruct (inv_some _ _ _ _ x (VRef l1) I1 (lookup_insert _ _ _)) as (t1 & Et1 & D1 & B1). destruct (inv_some _ _ _ _ _ _ I E) as (t0 & Et0 & D00 & _). assert (t1 = TList ts) as ->.
      { rewrite Et0 in Et1. injection Et1 as <-. clear -D0 D00 F El. apply den_list in D0 as (l' & vs' & [= <-] & El' & F'). destruct t0 as [z|ts0|fs0]; [discriminate D00| |apply den_struct in D00 as (? & ? & _); discriminate].
        f_equal. apply den_list in D00 as (l2 & vs2 & [= <-] & El2 & F2). rewrite El2 in El'. injection El' as <-. clear -F2 F'.
        assert (U : forall t t' v, den h t v -> den h t' v -> t = t').
        { clear. induction t as [z|ts IH|fs IH] using tree_ind2; intros t' v D D'.
          - cbn in D. subst v. destruct t' as [z'|ts'|fs']; [cbn in D'; congruence|apply den_list in D' as (? & ? & ? & _); discriminate|apply den_struct in D' as (? & ? & _); discriminate].
          - apply den_list in D as (l & vs & -> & El & F). destruct t' as [z'|ts'|fs']; [discriminate D'| |apply den_struct in D' as (? & ? & _); discriminate]. apply den_list in D' as (l' & vs' & [= <-] & El' & F'). rewrite El in El'. injection El' as <-. f_equal.
            revert ts' F'. clear El. induction F as [|t v ts vs D _ IHF]; intros ts' F'; inversion F'; subst; [done|]. apply List.Forall_cons_iff in IH as [IH1 IH2]. f_equal; [eauto|eauto].
          - apply den_struct in D as (gs & -> & F). destruct t' as [z'|ts'|fs']; [discriminate D'|apply den_list in D' as (? & ? & ? & _); discriminate|]. apply den_struct in D' as (gs' & [= <-] & F'). f_equal.
            revert fs' F'. induction F as [|[f t] v fs gs [Ef D] _ IHF]; intros fs' F'; inversion F' as [|[f' t'] ? ? ? [Ef' D'] F'']; subst; [done|]. apply List.Forall_cons_iff in IH as [IH1 IH2]. cbn in *. f_equal; [f_equal; [congruence|eauto]|eauto]. }
        revert ts0 F2. induction F' as [|t v ts vs D _ IH]; intros ts0 F2; inversion F2; subst; [done|]. f_equal; [eauto|eauto]. }
      apply den_list in D1 as (l2 & ws & [= <-] & El1 & F1). assert (Dt1 : Forall2 (den h1) tts temps) by (eapply Forall2_grown; eauto; apply I).
      pose proof (SC h1 ws ts F1 Dt1) as S. destruct (f ws) as [[us r]|] eqn:Ef, (tf ts) as [[ts' q]|]; cbn [mbind option_bind fst snd]; try done.
      * destruct S as (S1 & S2 & S3). destruct A1 as (A1 & A2 & A3). assert (O : forall w, In w us \/ r = Some w -> occ l1 w = 0 /\ below nx1 w).
        { intros w Hw. destruct (S3 w Hw) as [H|[H| ->]]; [| |done].
          - split; [pose proof (A1 _ _ El1) as Z; apply occs_zero in Z; rewrite List.Forall_forall in Z; now apply Z|]. destruct I1 as [[_ B2] _]. specialize (B2 _ _ El1). rewrite List.Forall_forall in B2. now apply B2.
          - split; [apply occs_zero in A3; rewrite List.Forall_forall in A3; now apply A3|]. rewrite List.Forall_forall in Bt. apply (below_mono nx); [apply G1|now apply Bt]. }
        assert (FR : forall t v, occ l1 v = 0 -> den h1 t v -> den (<[l1 := us]> h1) t v).
        { intros t v Hv. apply (den_frame h1 _ (fun l => l = l1)); [intros l0 N; apply lookup_insert_ne; congruence|intros l0 l' vs' -> E'; now apply (A1 _ _ E')|intros l0 ->; done]. }
        exists (<[l1 := us]> h1), nx1, (<[x := VRef l1]> env), r. split; [exists n1; intros n Hn; rewrite E1 by done; cbn; rewrite lookup_insert; cbn; rewrite El1, Ef; done|]. split; [|split].
        -- destruct I1 as [[K1 K2] K3]. assert (Lt : l1 < nx1) by (apply K1; rewrite El1; eauto). split; [split|].
           ++ intros l0. rewrite lookup_insert_is_Some. intros [<-|[_ H]]; [done|now apply K1].
           ++ intros l0 us0. rewrite lookup_insert_Some. intros [[<- <-]|[_ H]]; [|now apply (K2 l0)]. apply List.Forall_forall. intros w Hw. apply O. now left.
           ++ intros y. specialize (K3 y). destruct (decide (x = y)) as [->|N].
              ** rewrite lookup_insert in *. rewrite lookup_insert. split; [|intros l0 Hl0; cbn; destruct (Nat.eqb_spec l0 l1); [lia|done]]. apply den_list. exists l1, us. split; [done|]. split; [apply lookup_insert|]. eapply Forall2_In; [exact S1|]. intros t w _ Hw. apply FR. exact (proj1 (O w (or_introl Hw))).
              ** rewrite lookup_insert_ne in * by done. rewrite lookup_insert_ne by done. destruct (env !! y) as [w|] eqn:Ey, (tenv !! y); try done. destruct K3 as [Dw Bw]. split; [|done]. apply FR; [|done]. apply (A2 y); congruence.
        -- eapply Forall2_In; [exact S2|]. intros t w _ Hw. apply FR. refine (proj1 (O w (or_intror _))). destruct r; cbn in Hw; [destruct Hw as [->|[]]; done|done].
        -- destruct r as [w|]; cbn; constructor; [|constructor]. apply O. now right.
      * exists n1. intros n Hn. rewrite E1 by done. cbn. rewrite lookup_insert. cbn. rewrite El1, Ef. done.
    + apply den_struct in D as (gs & -> & F). exists 0. intros n _. unfold ensure_owned. rewrite E. cbn. rewrite E. done.
  - rewrite (inv_none _ _ _ _ _ I E). cbn. exists 0. intros n _. unfold ensure_owned. rewrite E. cbn. rewrite E. done.
Qed.
Lemma push_same v t : same_change [v] [t] (push v) (push t).
Proof.
  intros h vs ts F T. cbn. inversion T; subst. split; [apply Forall2_app; [done|constructor; [done|constructor]]|]. split; [constructor|]. intros w [H|H]; [|done]. apply in_app_or in H as [H|[<-|[]]]; [now left|right; left; now left].
Qed.
Lemma pop_same : same_change [] [] (pop (VNum 0)) (pop (TNum 0)).
Proof.
  intros h vs ts F _. cbn [pop]. destruct (List.rev vs) as [|v rv] eqn:R.
  - assert (vs = []) as -> by (rewrite <- (rev_involutive vs), R; done). inversion F; subst. cbn. split; [constructor|]. split; [constructor; [done|constructor]|]. intros w [[]|[= <-]]. right. now right.
  - assert (vs = rev rv ++ [v]) as -> by (rewrite <- (rev_involutive vs), R; done). apply Forall2_app_inv_r in F as (ts1 & ts2 & F1 & F2 & ->). inversion F2 as [|t ? ts3 ? D F3]; subst. inversion F3; subst. rewrite !removelast_last, !last_last. split; [done|]. split; [constructor; [done|constructor]|].
    intros w [H|[= <-]]; left; apply in_or_app; [now left|right; now left].
Qed.
Lemma set_same i v t : same_change [v] [t] (set_at i v) (set_at i t).
Proof.
  intros h vs ts F T. unfold set_at. pose proof (Forall2_length _ _ _ F) as Len. rewrite Len. destruct (resolve i (length vs)) as [k|]; cbn; [|done]. inversion T; subst. split; [now apply Forall2_insert|]. split; [constructor|]. intros w [H|H]; [|done].
  apply elem_of_list_In in H. apply elem_of_list_lookup in H as (j & H). apply list_lookup_insert_Some in H as [(_ & <- & _)|[_ H]]; [right; left; now left|]. left. apply elem_of_list_In. eapply elem_of_list_lookup_2; eauto.
Qed.
Lemma put_field_ok h f t v fs gs : den h t v -> Forall2 (den_field h) fs gs -> Forall2 (den_field h) (put_field f t fs) (put_field f v gs).
Proof.
  intros D. induction 1 as [|[g t'] [g' v'] fs gs [E D'] F IH]; [constructor; [done|constructor]|]. cbn in E. subst g'. cbn [put_field]. destruct (Nat.eqb g f); constructor; try done.
Qed.
Lemma put_field_below nx f v gs : below nx v -> List.Forall (fun p => below nx (snd p)) gs -> List.Forall (fun p => below nx (snd p)) (put_field f v gs).
Proof. intros B. induction 1 as [|[g w] gs Hw F IH]; [constructor; [done|constructor]|]. cbn [put_field]. destruct (Nat.eqb g f); constructor; done. Qed.

(** ** Statements *)
(** Statements that change variables only. *)
Definition direct (s : stmt) : Prop := match s with SPushField _ _ _ | SPushPlace _ _ | SSetPlace _ _ _ => False | _ => True end.
Lemma exec_ok h nx env tenv s : inv h nx env tenv -> direct s ->
  match texec tenv s with
  | Some (tenv', o) => exists h' nx' env', eventually (fun n => exec true n h nx env s) (Ok (h', nx', env', o)) /\ inv h' nx' env' tenv'
  | None => eventually (fun n => exec true n h nx env s) Err
  end.
Proof.
  intros I Di. destruct s as [x e|x e|e|e x|x into|x i e|x f e|e x f|e p|p i e]; try done; cbn [texec exec].
  - pose proof (eval_ok h nx env tenv e I) as V. unfold evaluates in V. destruct (teval tenv e) as [t|]; cbn [mbind option_bind]; [|destruct V as (n1 & E1); exists n1; intros n Hn; rewrite E1 by done; done].
    destruct V as (v & h1 & nx1 & (n1 & E1) & G1 & D1 & B1). exists h1, nx1, (<[x := v]> env). split; [exists n1; intros n Hn; rewrite E1 by done; done|]. apply inv_set; [eapply inv_grown; eauto|done|done].
  - pose proof (eval_ok h nx env tenv e I) as V. unfold evaluates in V. destruct (teval tenv e) as [t|]; cbn [mbind option_bind]; [|destruct V as (n1 & E1); exists n1; intros n Hn; rewrite E1 by done; done].
    destruct V as (v & h1 & nx1 & (n1 & E1) & G1 & D1 & B1). destruct (env !! x) as [w|] eqn:Ex.
    + destruct (inv_some _ _ _ _ _ _ I Ex) as (c & -> & _ & _). cbn. exists h1, nx1, (<[x := v]> env). split; [exists n1; intros n Hn; rewrite E1 by done; done|]. apply inv_set; [eapply inv_grown; eauto|done|done].
    + rewrite (inv_none _ _ _ _ _ I Ex). cbn. exists n1. intros n Hn. rewrite E1 by done. done.
  - pose proof (eval_ok h nx env tenv e I) as V. unfold evaluates in V. destruct (teval tenv e) as [t|]; cbn [mbind option_bind]; [|destruct V as (n1 & E1); exists n1; intros n Hn; rewrite E1 by done; done].
    destruct V as (v & h1 & nx1 & (n1 & E1) & G1 & D1 & B1). destruct (read_ok h1 t v D1) as (n2 & E2). exists h1, nx1, env. split; [exists (max n1 n2); intros n Hn; rewrite E1 by lia; cbn; rewrite E2 by lia; done|]. eapply inv_grown; eauto.
  - pose proof (eval_ok h nx env tenv e I) as V. unfold evaluates in V. destruct (teval tenv e) as [t|]; cbn [mbind option_bind]; [|destruct V as (n1 & E1); exists n1; intros n Hn; rewrite E1 by done; done].
    destruct V as (v & h1 & nx1 & (n1 & E1) & G1 & D1 & B1). pose proof (change_var_ok h1 nx1 env tenv [v] [t] x (push v) (push t) (inv_grown _ _ _ _ _ _ I G1) ltac:(constructor; [done|constructor]) ltac:(constructor; [done|constructor]) (push_same v t)) as C.
    destruct (tenv !! x) as [c|]; cbn [mbind option_bind] in *; [destruct (tchange c (push t)) as [[c' q]|]; cbn [mbind option_bind fst snd]|].
    + destruct C as (h2 & nx2 & env2 & r & (n2 & E2) & I2 & _). exists h2, nx2, env2. split; [exists (max n1 n2); intros n Hn; rewrite E1 by lia; cbn [obind]; rewrite E2 by lia; done|done].
    + destruct C as (n2 & E2). exists (max n1 n2). intros n Hn. rewrite E1 by lia. cbn [obind]. rewrite E2 by lia. done.
    + destruct C as (n2 & E2). exists (max n1 n2). intros n Hn. rewrite E1 by lia. cbn [obind]. rewrite E2 by lia. done.
  - pose proof (change_var_ok h nx env tenv [] [] x (pop (VNum 0)) (pop (TNum 0)) I ltac:(constructor) ltac:(constructor) pop_same) as C.
    destruct (tenv !! x) as [c|]; cbn [mbind option_bind] in *; [destruct (tchange c (pop (TNum 0))) as [[c' q]|]; cbn [mbind option_bind fst snd]|].
    + destruct C as (h2 & nx2 & env2 & r & (n2 & E2) & I2 & Dr & Br). eexists h2, nx2, _. split; [exists n2; intros n Hn; rewrite E2 by lia; cbn; reflexivity|]. destruct into as [y|]; [|done]. destruct q as [t|], r as [w|]; cbn in Dr; try (inversion Dr; fail); [|done]. inversion Dr; subst. inversion Br; subst. now apply inv_set.
    + destruct C as (n2 & E2). exists n2. intros n Hn. rewrite E2 by lia. done.
    + destruct C as (n2 & E2). exists n2. intros n Hn. rewrite E2 by lia. done.
  - pose proof (eval_ok h nx env tenv e I) as V. unfold evaluates in V. destruct (teval tenv e) as [t|]; cbn [mbind option_bind]; [|destruct V as (n1 & E1); exists n1; intros n Hn; rewrite E1 by done; done].
    destruct V as (v & h1 & nx1 & (n1 & E1) & G1 & D1 & B1). pose proof (change_var_ok h1 nx1 env tenv [v] [t] x (set_at i v) (set_at i t) (inv_grown _ _ _ _ _ _ I G1) ltac:(constructor; [done|constructor]) ltac:(constructor; [done|constructor]) (set_same i v t)) as C.
    destruct (tenv !! x) as [c|]; cbn [mbind option_bind] in *; [destruct (tchange c (set_at i t)) as [[c' q]|]; cbn [mbind option_bind fst snd]|].
    + destruct C as (h2 & nx2 & env2 & r & (n2 & E2) & I2 & _). exists h2, nx2, env2. split; [exists (max n1 n2); intros n Hn; rewrite E1 by lia; cbn [obind]; rewrite E2 by lia; done|done].
    + destruct C as (n2 & E2). exists (max n1 n2). intros n Hn. rewrite E1 by lia. cbn [obind]. rewrite E2 by lia. done.
    + destruct C as (n2 & E2). exists (max n1 n2). intros n Hn. rewrite E1 by lia. cbn [obind]. rewrite E2 by lia. done.
  - pose proof (eval_ok h nx env tenv e I) as V. unfold evaluates in V. destruct (teval tenv e) as [t|]; cbn [mbind option_bind]; [|destruct V as (n1 & E1); exists n1; intros n Hn; rewrite E1 by done; done].
    destruct V as (v & h1 & nx1 & (n1 & E1) & G1 & D1 & B1). destruct (env !! x) as [w|] eqn:Ex.
    + destruct (inv_some _ _ _ _ _ _ (inv_grown _ _ _ _ _ _ I G1) Ex) as (c & -> & Dc & Bc). cbn [mbind option_bind]. destruct c as [z|ts|fs].
      * cbn in Dc. subst w. exists n1. intros n Hn. rewrite E1 by done. done.
      * apply den_list in Dc as (? & ? & -> & _). exists n1. intros n Hn. rewrite E1 by done. done.
      * apply den_struct in Dc as (gs & -> & F). exists h1, nx1, (<[x := VStruct (put_field f v gs)]> env). split; [exists n1; intros n Hn; rewrite E1 by done; done|]. apply inv_set; [eapply inv_grown; eauto|apply den_struct; eexists; split; [reflexivity|now apply put_field_ok]|]. apply below_struct. apply put_field_below; [done|now apply below_struct].
    + rewrite (inv_none _ _ _ _ _ I Ex). cbn. exists n1. intros n Hn. rewrite E1 by done. done.
Qed.
Lemma collect_ok n : forall h nx env tenv, inv h nx env tenv -> inv (collect n h env) nx env tenv.
Proof.
  induction n as [|n IH]; intros h nx env tenv I; [done|]. cbn [collect]. apply IH. destruct I as [[B1 B2] H]. split; [split|].
  - intros l [vs E]. apply map_filter_lookup_Some in E as [E _]. apply B1. eauto.
  - intros l vs E. apply map_filter_lookup_Some in E as [E _]. eauto.
  - intros x. specialize (H x). destruct (env !! x) as [v|] eqn:Ex, (tenv !! x) as [t|]; try done. destruct H as [D Bv]. split; [|done]. revert D. apply (den_frame h _ (fun l => strong_count l h env [] = 0)).
    + intros l Hl. destruct (h !! l) as [vs|] eqn:E.
      * apply map_filter_lookup_Some. split; [done|exact Hl].
      * apply map_filter_lookup_None. now left.
    + intros l l' vs Z E. unfold strong_count in Z. assert (S1 : list_sum (map (fun p => occs l (snd p)) (map_to_list h)) = 0) by lia. apply (proj1 (sum_zero (fun p => occs l (snd p)) _) S1 (l', vs)). apply elem_of_list_In, elem_of_map_to_list. done.
    + intros l Z. unfold strong_count in Z. assert (S2 : list_sum (map (fun p => occ l (snd p)) (map_to_list env)) = 0) by lia. apply (proj1 (sum_zero (fun p => occ l (snd p)) _) S2 (x, v)). apply elem_of_list_In, elem_of_map_to_list. done.
Qed.
