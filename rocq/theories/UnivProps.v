(** C89: the order of universe levels. *)
From Coq Require Import NArith List Bool Lia.
From stdpp Require Import base decidable list numbers.
From Verif Require Import UnivModel.

(** What a level is worth when its variables are worth [r]. *)
Definition imaxN (x y : N) : N := if (y =? 0)%N then 0%N else N.max x y.
Fixpoint level (r : name -> N) (u : universe) : N :=
  match u with
  | SPrp => 0 | Prp => 0 | Typ n => n + 1 | UVar v => r v
  | USucc l => level r l + 1 | UMax a b => N.max (level r a) (level r b) | UIMax a b => imaxN (level r a) (level r b)
  end%N.
(** [a] is at most [b] whatever the variables are; SProp is below all others. *)
Definition at_most (a b : universe) : Prop := a = SPrp \/ (a <> SPrp /\ b <> SPrp /\ forall r, (level r a <= level r b)%N).
Definition same_level (a b : universe) : Prop := (a = SPrp <-> b = SPrp) /\ forall r, level r a = level r b.
Fixpoint names (u : universe) : list name := match u with SPrp | Prp | Typ _ => [] | UVar v => [v] | USucc l => names l | UMax a b | UIMax a b => names a ++ names b end.
(** No variable has the mark in its name. *)
Definition clean (u : universe) : Prop := forall v, In v (names u) -> ~ In 10022%N v.
Definition eventually {A} (f : nat -> option A) (a : A) : Prop := exists n0, forall n, n0 <= n -> f n = Some a.

(** ** Simplification *)
Fixpoint val (r : name -> N) (t : lnat) : N := match t with LConst c => c | LVar v => r v | LSucc l => val r l + 1 | LMax a b => N.max (val r a) (val r b) | LIMax a b => imaxN (val r a) (val r b) end%N.
Lemma val_to r u : val r (to_lnat u) = level r u.
Proof. induction u; cbn; congruence. Qed.
Fixpoint push (a b : lnat) : lnat :=
  match b with
  | LConst c => if (c =? 0)%N then LConst 0 else LMax a b
  | LSucc _ => LMax a b
  | LMax b1 b2 => LMax (push a b1) (push a b2)
  | LIMax b1 b2 => push (LMax a b1) b2
  | LVar _ => LIMax a b
  end.
Fixpoint nf (t : lnat) : lnat := match t with LConst _ | LVar _ => t | LSucc l => LSucc (nf l) | LMax a b => LMax (nf a) (nf b) | LIMax a b => push (nf a) (nf b) end.
Fixpoint isnf (t : lnat) : Prop := match t with LConst _ | LVar _ => True | LSucc l => isnf l | LMax a b => isnf a /\ isnf b | LIMax a b => isnf a /\ match b with LVar _ => True | _ => False end end.
Lemma push_isnf b : forall a, isnf a -> isnf b -> isnf (push a b).
Proof.
  induction b as [c|v|l IH|b1 IH1 b2 IH2|b1 IH1 b2 IH2]; intros a Ha Hb; cbn in *; [destruct (c =? 0)%N; done|done|done| |].
  - destruct Hb. split; auto.
  - destruct Hb as [H1 H2]. destruct b2; try done.
Qed.
Lemma nf_isnf t : isnf (nf t).
Proof. induction t; cbn; auto. now apply push_isnf. Qed.
Lemma nf_id t : isnf t -> nf t = t.
Proof.
  induction t as [c|v|l IH|a IHa b IHb|a IHa b IHb]; cbn; [done|done|intros H; now rewrite IH|intros [H1 H2]; now rewrite IHa, IHb|]. intros [H1 H2]. destruct b; try done. cbn. now rewrite IHa.
Qed.
Lemma imaxN_max x y z : imaxN x (N.max y z) = N.max (imaxN x y) (imaxN x z).
Proof. unfold imaxN. destruct (N.eqb_spec y 0), (N.eqb_spec z 0), (N.eqb_spec (N.max y z) 0); lia. Qed.
Lemma imaxN_imax x y z : imaxN x (imaxN y z) = imaxN (N.max x y) z.
Proof. unfold imaxN. destruct (N.eqb_spec z 0) as [->|?]; [done|]. destruct (N.eqb_spec (N.max y z) 0); lia. Qed.
Lemma val_push r b : forall a, val r (push a b) = imaxN (val r a) (val r b).
Proof.
  induction b as [c|v|l IH|b1 IH1 b2 IH2|b1 IH1 b2 IH2]; intros a; cbn.
  - destruct (N.eqb_spec c 0) as [->|E]; cbn; unfold imaxN; [done|]. destruct (N.eqb_spec c 0); [done|done].
  - done.
  - unfold imaxN. destruct (N.eqb_spec (val r l + 1) 0); [lia|done].
  - now rewrite IH1, IH2, imaxN_max.
  - now rewrite IH2, imaxN_imax.
Qed.
Lemma val_nf r t : val r (nf t) = val r t.
Proof. induction t; cbn; try congruence. rewrite val_push. congruence. Qed.
Lemma simp_nf_id t : isnf t -> eventually (fun n => simp n t) t.
Proof.
  induction t as [c|v|l IH|a IHa b IHb|a IHa b IHb]; cbn [isnf].
  - exists 1. intros [|n] Hn; [lia|done].
  - exists 1. intros [|n] Hn; [lia|done].
  - intros H. destruct (IH H) as (n0 & E). exists (S n0). intros [|n] Hn; [lia|]. cbn [simp]. rewrite E by lia. done.
  - intros [H1 H2]. destruct (IHa H1) as (n1 & E1). destruct (IHb H2) as (n2 & E2). exists (S (max n1 n2)). intros [|n] Hn; [lia|]. cbn [simp]. rewrite E1 by lia. cbn. rewrite E2 by lia. done.
  - intros [H1 H2]. destruct b as [|v| | |]; try done. destruct (IHa H1) as (n1 & E1). destruct (IHb I) as (n2 & E2). exists (S (max n1 n2)). intros [|n] Hn; [lia|]. cbn [simp]. rewrite E1 by lia. cbn. rewrite E2 by lia. done.
Qed.
Lemma simp_imax b : forall a, isnf a -> isnf b -> eventually (fun n => simp n (LIMax a b)) (push a b).
Proof.
  induction b as [c|v|l IH|b1 IH1 b2 IH2|b1 IH1 b2 IH2]; intros a Ha Hb; destruct (simp_nf_id a Ha) as (n1 & E1); destruct (simp_nf_id _ Hb) as (n2 & E2).
  - destruct (N.eqb_spec c 0) as [->|N0].
    + exists (S (max n1 n2)). intros [|n] Hn; [lia|]. cbn [simp]. rewrite E1 by lia. cbn. rewrite E2 by lia. done.
    + destruct (simp_nf_id (LMax a (LConst c)) (conj Ha Hb)) as (n3 & E3). exists (S (max (max n1 n2) n3)). intros [|n] Hn; [lia|]. cbn [simp]. rewrite E1 by lia. cbn [mbind option_bind]. rewrite E2 by lia. cbn [mbind option_bind push]. destruct (N.eqb_spec c 0); [done|]. apply E3. lia.
  - exists (S (max n1 n2)). intros [|n] Hn; [lia|]. cbn [simp]. rewrite E1 by lia. cbn. rewrite E2 by lia. done.
  - destruct (simp_nf_id (LMax a (LSucc l)) (conj Ha Hb)) as (n3 & E3). exists (S (max (max n1 n2) n3)). intros [|n] Hn; [lia|]. cbn [simp]. rewrite E1 by lia. cbn [mbind option_bind]. rewrite E2 by lia. cbn [mbind option_bind push]. apply E3. lia.
  - destruct Hb as [Hb1 Hb2]. destruct (IH1 a Ha Hb1) as (n3 & E3). destruct (IH2 a Ha Hb2) as (n4 & E4). exists (S (S (max (max n1 n2) (max n3 n4)))). intros [|n] Hn; [lia|]. cbn [simp]. rewrite E1 by lia. cbn [mbind option_bind]. rewrite E2 by lia. cbn [mbind option_bind push]. destruct n as [|n]; [lia|]. cbn [simp]. rewrite E3 by lia. cbn [mbind option_bind]. rewrite E4 by lia. done.
  - destruct Hb as [Hb1 Hb2]. destruct b2 as [|v| | |]; try done. destruct (IH2 (LMax a b1) (conj Ha Hb1) I) as (n3 & E3). exists (S (max (max n1 n2) n3)). intros [|n] Hn; [lia|]. cbn [simp]. rewrite E1 by lia. cbn [mbind option_bind]. rewrite E2 by lia. cbn [mbind option_bind]. rewrite E3 by lia. done.
Qed.
Lemma simp_ok t : eventually (fun n => simp n t) (nf t).
Proof.
  induction t as [c|v|l IH|a IHa b IHb|a IHa b IHb].
  - exists 1. intros [|n] Hn; [lia|done].
  - exists 1. intros [|n] Hn; [lia|done].
  - destruct IH as (n0 & E). exists (S n0). intros [|n] Hn; [lia|]. cbn [simp]. rewrite E by lia. done.
  - destruct IHa as (n1 & E1). destruct IHb as (n2 & E2). exists (S (max n1 n2)). intros [|n] Hn; [lia|]. cbn [simp]. rewrite E1 by lia. cbn. rewrite E2 by lia. done.
  - destruct IHa as (n1 & E1). destruct IHb as (n2 & E2). destruct (simp_nf_id _ (nf_isnf a)) as (n3 & E3). destruct (simp_nf_id _ (nf_isnf b)) as (n4 & E4). destruct (simp_imax (nf b) (nf a) (nf_isnf a) (nf_isnf b)) as (n5 & E5).
    exists (S (max (max (max n1 n2) (max n3 n4)) n5)). intros n' Hn. specialize (E5 n' ltac:(lia)). destruct n' as [|n]; [lia|]. cbn [simp] in *. rewrite E1 by lia. rewrite E3 in E5 by lia. cbn [mbind option_bind] in *. rewrite E2 by lia. rewrite E4 in E5 by lia. exact E5.
Qed.

(** ** Case analysis *)
Fixpoint lnames (t : lnat) : list name := match t with LConst _ => [] | LVar v => [v] | LSucc l => lnames l | LMax a b | LIMax a b => lnames a ++ lnames b end.
Lemma val_ext r r' t : (forall v, In v (lnames t) -> r v = r' v) -> val r t = val r' t.
Proof.
  induction t as [c|v|l IH|a IHa b IHb|a IHa b IHb]; cbn; intros H; [done|apply H; now left|now rewrite IH| |]; (rewrite IHa, IHb; [done| |]; intros v Hv; apply H; apply in_or_app; auto).
Qed.
Definition upd (r : name -> N) (v : name) (x : N) : name -> N := fun w => if decide (w = v) then x else r w.
Lemma val_subst r t v s : val r (subst t v s) = val (upd r v (val r s)) t.
Proof. induction t as [c|x|l IH|a IHa b IHb|a IHa b IHb]; cbn; try congruence. unfold upd. destruct (decide (x = v)); done. Qed.
Lemma lnames_push b : forall a v, In v (lnames (push a b)) -> In v (lnames a) \/ In v (lnames b).
Proof.
  induction b as [c|x|l IH|b1 IH1 b2 IH2|b1 IH1 b2 IH2]; intros a v; cbn.
  - destruct (c =? 0)%N; cbn; [done|]. intros H. apply in_app_or in H. tauto.
  - intros H. apply in_app_or in H. tauto.
  - intros H. apply in_app_or in H. tauto.
  - intros H. apply in_app_or in H as [H|H]; [apply IH1 in H|apply IH2 in H]; rewrite in_app_iff; tauto.
  - intros H. apply IH2 in H. cbn in H. rewrite in_app_iff in *. tauto.
Qed.
Lemma lnames_nf t v : In v (lnames (nf t)) -> In v (lnames t).
Proof.
  induction t as [c|x|l IH|a IHa b IHb|a IHa b IHb]; cbn; try tauto; [rewrite !in_app_iff; tauto|]. intros H. apply lnames_push in H. rewrite in_app_iff. tauto.
Qed.
Lemma lnames_subst t v s x : In x (lnames (subst t v s)) -> (x <> v /\ In x (lnames t)) \/ In x (lnames s).
Proof.
  induction t as [c|y|l IH|a IHa b IHb|a IHa b IHb]; cbn; try tauto; [|rewrite !in_app_iff; tauto|rewrite !in_app_iff; tauto]. destruct (decide (y = v)); [tauto|]. cbn. intros [<-|[]]. left. auto.
Qed.
Fixpoint count (t : lnat) : nat := match t with LConst _ | LVar _ => 0 | LSucc l => count l | LMax a b => count a + count b | LIMax a b => S (count a + count b) end.
Lemma pivot_none t : isnf t -> pivot t = None -> count t = 0.
Proof.
  induction t as [c|v|l IH|a IHa b IHb|a IHa b IHb]; cbn; try done.
  - intros [H1 H2] E. destruct (pivot a); [done|]. cbn in E. rewrite IHa, IHb; done.
  - intros [H1 H2]. destruct b; done.
Qed.
Lemma pivot_in t v : pivot t = Some v -> In v (lnames t).
Proof.
  induction t as [c|x|l IH|a IHa b IHb|a IHa b IHb]; cbn; try done; rewrite ?in_app_iff.
  - destruct (pivot a); cbn; [intros [= ->]; left; auto|auto].
  - destruct b as [|y| | |]; [|intros [= ->]; right; now left|..]; (destruct (pivot a); cbn [or_else]; [intros [= ->]; left; auto|auto]).
Qed.
(** Replacing a variable by a constant or a successor resolves the pivots on it. *)
Lemma count_split t v s : isnf t -> match s with LConst _ => True | LSucc l => count l = 0 /\ isnf l | _ => False end ->
  count (nf (subst t v s)) <= count t /\ (pivot t = Some v -> count (nf (subst t v s)) < count t).
Proof.
  intros Ht Hs. assert (C : count (nf s) = 0) by (destruct s; try done; cbn; destruct Hs as [? ?]; rewrite nf_id; done).
  induction t as [c|x|l IH|a IHa b IHb|a IHa b IHb]; cbn [isnf] in Ht.
  - cbn. split; [done|done].
  - cbn. destruct (decide (x = v)); [rewrite C|cbn]; split; done.
  - cbn. destruct (IH Ht). split; [done|auto].
  - destruct Ht as [H1 H2]. destruct (IHa H1) as [L1 S1]. destruct (IHb H2) as [L2 S2]. cbn. split; [lia|]. destruct (pivot a) as [w|]; cbn; intros E; [specialize (S1 E); lia|specialize (S2 E); lia].
  - destruct Ht as [H1 H2]. destruct b as [|x| | |]; try done. destruct (IHa H1) as [L1 _]. cbn [subst nf]. cbn [count pivot]. destruct (decide (x = v)) as [->|N].
    + assert (count (push (nf (subst a v s)) (nf s)) <= count (nf (subst a v s))); [|split; [lia|intros _; lia]]. destruct s as [c| |l| |]; try done; cbn; [destruct (c =? 0)%N; cbn; lia|]. cbn in C. lia.
    + cbn. split; [lia|]. intros [= ->]. done.
Qed.

(** ** Without imax *)
Definition worth (r : name -> N) (p : option name * N) : N := match fst p with None => snd p | Some v => r v + snd p end%N.
Definition top (r : name -> N) (ps : list (option name * N)) : N := fold_right N.max 0%N (map (worth r) ps).
Lemma top_app r p q : top r (p ++ q) = N.max (top r p) (top r q).
Proof. unfold top. induction p as [|x p IH]; cbn; [lia|]. rewrite IH. lia. Qed.
Lemma atoms_ok t : count t = 0 -> forall off, exists ps, atoms t off = Some ps /\ forall r, top r ps = (val r t + off)%N.
Proof.
  induction t as [c|v|l IH|a IHa b IHb|a IHa b IHb]; cbn; intros C off; [|..|done].
  - eexists. split; [done|]. intros r. unfold top, worth. cbn. lia.
  - eexists. split; [done|]. intros r. unfold top, worth. cbn. lia.
  - destruct (IH C (off + 1)%N) as (ps & E & H). exists ps. split; [done|]. intros r. rewrite H. lia.
  - destruct (IHa ltac:(lia) off) as (p & E1 & H1). destruct (IHb ltac:(lia) off) as (q & E2 & H2). rewrite E1. cbn. rewrite E2. cbn. eexists. split; [done|]. intros r. rewrite top_app, H1, H2. lia.
Qed.
Lemma top_le r ps m : (top r ps <= m)%N <-> forall p, In p ps -> (worth r p <= m)%N.
Proof.
  unfold top. induction ps as [|p ps IH]; cbn; [split; [done|lia]|]. rewrite N.max_lub_iff, IH. split; [intros [H1 H2] q [<-|Hq]; auto|intros H; split; [apply H; now left|intros q Hq; apply H; now right]].
Qed.
Lemma top_attained r ps : ps <> [] -> exists p, In p ps /\ worth r p = top r ps.
Proof.
  unfold top. induction ps as [|p ps IH]; [done|]. intros _. cbn. destruct ps as [|q ps]; [exists p; split; [now left|cbn; lia]|]. destruct (IH ltac:(done)) as (x & Hx & E). destruct (N.max_spec (worth r p) (fold_right N.max 0%N (map (worth r) (q :: ps)))) as [[_ ->]|[_ ->]]; [exists x; split; [now right|done]|exists p; split; [now left|done]].
Qed.
Lemma least_top bs : least bs = top (fun _ => 0%N) bs.
Proof. unfold least, top. f_equal. apply map_ext. intros [[v|] o]; unfold worth; cbn; lia. Qed.
Lemma top_mono r r' ps : (forall v, r v <= r' v)%N -> (top r ps <= top r' ps)%N.
Proof. intros H. apply top_le. intros p Hp. etransitivity; [|exact (proj1 (top_le r' ps (top r' ps)) ltac:(lia) p Hp)]. destruct p as [[v|] o]; unfold worth; cbn; [specialize (H v); lia|lia]. Qed.
Lemma linear_ok a b : count a = 0 -> count b = 0 -> exists x, leq_linear a b = Some x /\ (x = true <-> forall r, (val r a <= val r b)%N).
Proof.
  intros Ca Cb. destruct (atoms_ok a Ca 0%N) as (p & Ep & Hp). destruct (atoms_ok b Cb 0%N) as (q & Eq & Hq). unfold leq_linear. rewrite Ep. cbn. rewrite Eq. cbn. eexists. split; [done|]. rewrite forallb_forall. split.
  - intros H r. specialize (Hp r). specialize (Hq r). rewrite N.add_0_r in *. rewrite <- Hp, <- Hq. apply top_le. intros [[v|] o] Hi; specialize (H _ Hi); cbn in H; unfold worth; cbn.
    + apply existsb_exists in H as ([w o'] & Hw & H). apply andb_true_iff in H as [H1 H2]. apply bool_decide_eq_true in H1. cbn in *. subst w. apply N.leb_le in H2. pose proof (proj1 (top_le r q (top r q)) ltac:(lia) _ Hw) as K. unfold worth in K. cbn in K. lia.
    + apply N.leb_le in H. rewrite least_top in H. pose proof (top_mono (fun _ => 0%N) r q ltac:(intros; cbn; lia)). lia.
  - intros H [[v|] o] Hi; cbn.
    + set (M := (1 + least q)%N). set (r := upd (fun _ => 0%N) v M). specialize (H r). specialize (Hp r). specialize (Hq r). rewrite N.add_0_r in *. rewrite <- Hp, <- Hq in H. pose proof (proj1 (top_le r p (top r q)) H _ Hi) as K. unfold worth in K. cbn in K. assert (Er : r v = M) by (unfold r, upd; destruct (decide (v = v)); done). rewrite Er in K.
      apply existsb_exists. assert (q <> []) as Ne by (intros ->; cbn in K; unfold M in K; lia). destruct (top_attained r q Ne) as ([w o'] & Hw & E). exists (w, o'). split; [done|]. rewrite <- E in K. unfold worth in K. cbn in K |- *.
      pose proof (proj1 (top_le (fun _ => 0%N) q (least q)) ltac:(rewrite least_top; lia) _ Hw) as L. unfold worth in L. cbn in L. destruct w as [w|]; [|unfold M in K; lia].
      destruct (decide (w = v)) as [->|N]; [rewrite bool_decide_true by done; rewrite Er in K; apply N.leb_le; lia|]. assert (r w = 0%N) as Z by (unfold r, upd; destruct (decide (w = v)); done). rewrite Z in K. unfold M in K. lia.
    + apply N.leb_le. rewrite least_top. specialize (H (fun _ => 0%N)). specialize (Hp (fun _ => 0%N)). specialize (Hq (fun _ => 0%N)). rewrite N.add_0_r in *. rewrite <- Hp, <- Hq in H. apply (proj1 (top_le _ p _) H _ Hi).
Qed.

(** ** The decision *)
Fixpoint marks (k : nat) (v : name) : name := match k with O => v | S k => marked (marks k v) end.
Definition apart (vs : list name) : Prop := forall x k, In x vs -> 1 <= k -> ~ In (marks k x) vs.
Lemma marked_inj v w : marked v = marked w -> v = w.
Proof. unfold marked. intros H. apply app_inj_tail in H. tauto. Qed.
Lemma marks_length k v : length (marks k v) = length v + k.
Proof. induction k as [|k IH]; cbn; [lia|]. unfold marked. rewrite app_length, IH. cbn. lia. Qed.
Lemma marks_S k v : marks k (marked v) = marked (marks k v).
Proof. induction k as [|k IH]; cbn; [done|]. now rewrite IH. Qed.
Lemma apart_split vs ws v : apart vs -> In v vs -> (forall x, In x ws -> (x <> v /\ In x vs) \/ x = marked v) -> apart ws.
Proof.
  intros A Hv H x k Hx Hk Hm. destruct k as [|k]; [lia|]. destruct (H x Hx) as [[Nx Ix]| ->]; destruct (H _ Hm) as [[Nm Im]|Em].
  - exact (A x (S k) Ix Hk Im).
  - cbn in Em. apply marked_inj in Em. destruct k as [|k]; [done|]. apply (A x (S k) Ix ltac:(lia)). now rewrite Em.
  - rewrite marks_S in Im. exact (A v (S (S k)) Hv ltac:(lia) Im).
  - apply (f_equal length) in Em. rewrite marks_length in Em. lia.
Qed.
Lemma leq_ok k : forall a b, isnf a -> isnf b -> count a + count b <= k -> apart (lnames a ++ lnames b) -> exists x, eventually (fun n => lnat_leq n a b) x /\ (x = true <-> forall r, (val r a <= val r b)%N).
Proof.
  induction k as [|k IH]; intros a b Ha Hb L A.
  - destruct (linear_ok a b ltac:(lia) ltac:(lia)) as (x & E & H). exists x. split; [|done]. exists 1. intros [|n] Hn; [lia|]. cbn [lnat_leq].
    assert (P : forall t, isnf t -> count t = 0 -> pivot t = None).
    { clear. induction t as [c|v|l IH|a IHa b IHb|a IHa b IHb]; cbn; try done. intros [H1 H2] C. rewrite IHa, IHb by (done || lia). done. }
    rewrite !P by (done || lia). done.
  - destruct (or_else (pivot a) (pivot b)) as [v|] eqn:P.
    + assert (Hv : In v (lnames a ++ lnames b)). { apply in_or_app. destruct (pivot a) as [w|] eqn:Pa; cbn in P; [injection P as ->; left; now apply pivot_in|right; now apply pivot_in]. }
      assert (D : forall s, match s with LConst _ => True | LSucc l => count l = 0 /\ isnf l | _ => False end -> count (nf (subst a v s)) + count (nf (subst b v s)) <= k).
      { intros s Hs. destruct (count_split a v s Ha Hs) as [L1 S1]. destruct (count_split b v s Hb Hs) as [L2 S2]. destruct (pivot a) as [w|] eqn:Pa; cbn in P; [injection P as ->; specialize (S1 eq_refl); lia|specialize (S2 P); lia]. }
      assert (AP : forall s, (forall x, In x (lnames s) -> x = marked v) -> apart (lnames (nf (subst a v s)) ++ lnames (nf (subst b v s)))).
      { intros s Hs. apply (apart_split _ _ v A Hv). intros x Hx. apply in_app_or in Hx as [Hx|Hx]; apply lnames_nf, lnames_subst in Hx; rewrite in_app_iff; destruct Hx as [[N Hx]|Hx]; auto. }
      set (s := LSucc (LVar (marked v))). destruct (IH (nf (subst a v (LConst 0))) (nf (subst b v (LConst 0))) (nf_isnf _) (nf_isnf _) (D (LConst 0) I) (AP (LConst 0) ltac:(intros x []))) as (x0 & (n0 & E0) & H0).
      destruct (IH (nf (subst a v s)) (nf (subst b v s)) (nf_isnf _) (nf_isnf _) (D s ltac:(done)) (AP s ltac:(intros x [<-|[]]; done))) as (x1 & (n1 & E1) & H1).
      destruct (simp_ok (subst a v (LConst 0))) as (m1 & S1). destruct (simp_ok (subst b v (LConst 0))) as (m2 & S2). destruct (simp_ok (subst a v s)) as (m3 & S3). destruct (simp_ok (subst b v s)) as (m4 & S4).
      exists (x0 && x1). split.
      * exists (S (max (max n0 n1) (max (max m1 m2) (max m3 m4)))). intros [|n] Hn; [lia|]. cbn [lnat_leq]. rewrite P, S1 by lia. cbn [mbind option_bind]. rewrite S2 by lia. cbn [mbind option_bind]. fold s. rewrite S3 by lia. cbn [mbind option_bind]. rewrite S4 by lia. cbn [mbind option_bind]. rewrite E0 by lia. cbn [mbind option_bind]. destruct x0; [apply E1; lia|done].
      * rewrite andb_true_iff, H0, H1. split.
        -- intros [K0 K1] r. destruct (N.eq_dec (r v) 0) as [Z|Z].
           ++ specialize (K0 r). rewrite !val_nf, !val_subst in K0. rewrite !(val_ext (upd r v (val r (LConst 0))) r) in K0; [done| |]; intros w _; unfold upd; cbn; destruct (decide (w = v)); congruence.
           ++ assert (NM : ~ In (marked v) (lnames a ++ lnames b)) by (apply (A v 1 Hv); lia). rewrite in_app_iff in NM.
              specialize (K1 (upd r (marked v) (r v - 1)%N)). rewrite !val_nf, !val_subst in K1. set (r1 := upd (upd r (marked v) (r v - 1)%N) v _) in K1.
              assert (R : forall w, w <> marked v -> r1 w = r w). { intros w Nw. unfold r1, upd, s. cbn. destruct (decide (w = v)) as [->|]; [destruct (decide (marked v = marked v)); [lia|done]|]. destruct (decide (w = marked v)); done. }
              rewrite !(val_ext r1 r) in K1; [done| |]; intros w Hw; apply R; intros ->; tauto.
        -- intros K. split; intros r; rewrite !val_nf, !val_subst; apply K.
    + destruct (pivot a) eqn:Pa; [done|]. cbn in P. destruct (linear_ok a b (pivot_none a Ha Pa) (pivot_none b Hb P)) as (x & E & H). exists x. split; [|done]. exists 1. intros [|n] Hn; [lia|]. cbn [lnat_leq]. rewrite Pa, P. done.
Qed.
Lemma clean_apart vs : (forall v, In v vs -> ~ In 10022%N v) -> apart vs.
Proof. intros H x [|k] _ Hk Hm; [lia|]. apply (H _ Hm). cbn. unfold marked. apply in_or_app. right. now left. Qed.
Lemma lnames_to u : lnames (to_lnat u) = names u.
Proof. induction u; cbn; congruence. Qed.

(** The order is decided: the check ends, never meets its unreachable branch, and says yes exactly when the first level is at most the second
    whatever the variables are. *)
Lemma sprp_dec (u : universe) : {u = SPrp} + {u <> SPrp}.
Proof. destruct u; (left; done) || (right; done). Defined.
Theorem C89_decides : forall a b, clean a -> clean b -> exists x, eventually (fun n => level_leq n a b) x /\ (x = true <-> at_most a b).
Proof.
  intros a b Ca Cb. unfold at_most. destruct (sprp_dec a) as [->|Na]; [exists true; split; [exists 0; done|tauto]|]. destruct (sprp_dec b) as [->|Nb]; [exists false; split; [exists 0; destruct a; done|split; [done|tauto]]|].
  destruct (leq_ok (count (nf (to_lnat a)) + count (nf (to_lnat b))) (nf (to_lnat a)) (nf (to_lnat b)) (nf_isnf _) (nf_isnf _) ltac:(lia)) as (x & (n0 & E) & H).
  { apply clean_apart. intros v Hv. apply in_app_or in Hv as [Hv|Hv]; apply lnames_nf in Hv; rewrite lnames_to in Hv; auto. }
  destruct (simp_ok (to_lnat a)) as (n1 & E1). destruct (simp_ok (to_lnat b)) as (n2 & E2). exists x. split.
  - exists (max n0 (max n1 n2)). intros n Hn. unfold level_leq. assert (G : (x0 ← simp n (to_lnat a); y ← simp n (to_lnat b); lnat_leq n x0 y) = Some x) by (rewrite E1 by lia; cbn; rewrite E2 by lia; cbn; apply E; lia). destruct a, b; done.
  - rewrite H. split; [intros K; right; split; [done|]; split; [done|]; intros r; specialize (K r); rewrite !val_nf, !val_to in K; done|]. intros [K|(_ & _ & K)]; [done|]. intros r. rewrite !val_nf, !val_to. apply K.
Qed.
Example C89_decides_ex : let u := UVar [117%N] in let v := UVar [118%N] in
  clean (UIMax u v) /\ level_leq 20 (UIMax u v) (UMax v u) = Some true /\ level_leq 20 (UMax u v) (UIMax u v) = Some false /\
  level_leq 20 (USucc (UIMax u (UIMax v u))) (UMax (USucc u) (USucc (UIMax v u))) = Some true /\ level_leq 20 (Typ 0) u = Some false.
Proof. split; [intros x [<-|[<-|[]]]; cbn; intros [?|[]]; discriminate|]. vm_compute. done. Qed.

Lemma at_most_same a b : at_most a b /\ at_most b a <-> same_level a b.
Proof.
  unfold at_most, same_level. split.
  - intros [H1 H2]. destruct (sprp_dec a) as [->|Na], (sprp_dec b) as [->|Nb]; [done|destruct H2 as [?|(_ & ? & _)]; done|destruct H1 as [?|(_ & ? & _)]; done|].
    destruct H1 as [?|(_ & _ & H1)], H2 as [?|(_ & _ & H2)]; try done. split; [split; done|]. intros r. specialize (H1 r). specialize (H2 r). lia.
  - intros [H1 H2]. destruct (sprp_dec a) as [Ea|Na]; [split; left; tauto|]. assert (b <> SPrp) by tauto. split; right; (split; [done|]; split; [done|]; intros r; rewrite H2; lia).
Qed.
(** Two levels are equal for the checker exactly when they are equal whatever the variables are. *)
Theorem C89_equiv : forall a b, clean a -> clean b -> exists x, eventually (fun n => equiv n a b) x /\ (x = true <-> same_level a b).
Proof.
  intros a b Ca Cb. destruct (C89_decides a b Ca Cb) as (x & (n1 & E1) & H1). destruct (C89_decides b a Cb Ca) as (y & (n2 & E2) & H2). exists (x && y). split.
  - exists (max n1 n2). intros n Hn. unfold equiv. rewrite E1 by lia. cbn. destruct x; [apply E2; lia|done].
  - rewrite andb_true_iff, H1, H2. apply at_most_same.
Qed.
(** The sort of a sort, of a pair of sorts and of a product: one more (for a Type short of the last), the greater, and the impredicative maximum. *)
Theorem C89_operations : forall r a b,
  (a <> SPrp -> a <> Prp -> a <> Typ (2 ^ 32 - 1) -> (forall n, a = Typ n -> (n < 2 ^ 32)%N) -> level r (succ a) = (level r a + 1)%N) /\
  level r (umax a b) = N.max (level r a) (level r b) /\
  (clean a -> clean b -> exists c, eventually (fun n => imax n a b) c /\ forall r, level r c = if (level r b =? 0)%N then 0%N else N.max (level r a) (level r b)).
Proof.
  intros r a b. assert (M : forall r, level r (umax a b) = N.max (level r a) (level r b)) by (intros r'; destruct a, b; cbn; lia). split; [|split; [apply M|]].
  - intros H1 H2 H3 H4. destruct a; try done. cbn. specialize (H4 n eq_refl). rewrite N.mod_small; [done|]. assert (n <> 2 ^ 32 - 1)%N by congruence. lia.
  - intros Ca Cb. destruct (C89_equiv a b Ca Cb) as (x & (n0 & E) & H).
    assert (G : exists c, eventually (fun n => e ← equiv n a b; Some (if (e : bool) then a else UIMax a b)) c /\ forall r, level r c = if (level r b =? 0)%N then 0%N else N.max (level r a) (level r b)).
    { exists (if x then a else UIMax a b). split; [exists n0; intros n Hn; rewrite E by done; done|]. intros r'. destruct x; [|done]. destruct H as [H _]. specialize (H eq_refl) as [_ H]. rewrite <- H. destruct (N.eqb_spec (level r' a) 0); lia. }
    destruct b; try exact G.
    + exists SPrp. split; [exists 0; done|done].
    + exists Prp. split; [exists 0; done|done].
    + exists (umax a (Typ n)). split; [exists 0; done|]. intros r'. rewrite M. cbn. destruct (N.eqb_spec (n + 1) 0); [lia|done].
    + exists (umax a (USucc b)). split; [exists 0; done|]. intros r'. rewrite M. cbn. destruct (N.eqb_spec (level r' b + 1) 0); [lia|done].
Qed.
Example C89_operations_ex : imax 20 (UVar [117%N]) (UVar [118%N]) = Some (UIMax (UVar [117%N]) (UVar [118%N])) /\ imax 20 (UMax (UVar [117%N]) (UVar [117%N])) (UVar [117%N]) = Some (UMax (UVar [117%N]) (UVar [117%N])) /\ imax 20 (UVar [117%N]) (Typ 3) = Some (UMax (UVar [117%N]) (Typ 3)).
Proof. vm_compute. done. Qed.

(** ** Instances *)
Lemma names_umax a b v : In v (names (umax a b)) -> In v (names a) \/ In v (names b).
Proof. destruct a, b; cbn; rewrite ?in_app_iff; tauto. Qed.
Lemma clean_succ u : clean u -> clean (succ u).
Proof. intros C v. destruct u; cbn; try done; apply C. Qed.
Lemma clean_imax n a b c : clean a -> clean b -> imax n a b = Some c -> clean c.
Proof.
  intros Ca Cb E. assert (G : forall e, (e ← equiv n a b; Some (if (e : bool) then a else UIMax a b)) = Some e -> clean e).
  { intros e. destruct (equiv n a b) as [x|]; cbn; [|done]. intros [= <-]. destruct x; [done|]. intros v Hv. apply in_app_or in Hv as [?|?]; auto. }
  destruct b; cbn in E; try (now apply G); injection E as <-; try done; intros v Hv; apply names_umax in Hv as [?|?]; auto.
Qed.
(** No successor is taken of a level that the instance makes SProp, Prop or the last Type. *)
Fixpoint steps_ok (s : name -> option universe) (u : universe) : Prop :=
  match u with
  | SPrp | Prp | Typ _ | UVar _ => True
  | USucc l => steps_ok s l /\ forall x, eventually (fun n => usubst n s l) x -> x <> SPrp /\ x <> Prp /\ forall m, x = Typ m -> (m + 1 < 2 ^ 32)%N
  | UMax a b | UIMax a b => steps_ok s a /\ steps_ok s b
  end.
(** What the variables are worth in the instance. *)
Definition instance (s : name -> option universe) (r : name -> N) : name -> N := fun v => match s v with Some w => level r w | None => r v end.
Definition clean_map (s : name -> option universe) : Prop := forall v w, s v = Some w -> clean w.
Lemma usubst_ok s u : clean_map s -> clean u -> exists u', eventually (fun n => usubst n s u) u' /\ clean u' /\ (steps_ok s u -> forall r, level r u' = level (instance s r) u).
Proof.
  intros Cs. induction u as [| |m|v|l IH|a IHa b IHb|a IHa b IHb]; intros Cu.
  - exists SPrp. split; [exists 0; done|done].
  - exists Prp. split; [exists 0; done|done].
  - exists (Typ m). split; [exists 0; done|done].
  - eexists. split; [exists 0; intros; cbn; reflexivity|]. unfold instance. cbn. destruct (s v) eqn:E; [split; [eapply Cs; eauto|done]|done].
  - destruct (IH Cu) as (l' & (n0 & E) & C & L). exists (succ l'). split; [exists n0; intros n Hn; cbn; rewrite E by done; done|]. split; [now apply clean_succ|]. intros [St K] r. destruct (K l' (ex_intro _ n0 E)) as (K1 & K2 & K3). cbn. rewrite <- (L St r).
    destruct l'; try done. specialize (K3 n eq_refl). cbn. rewrite N.mod_small by done. done.
  - destruct IHa as (a' & (n1 & E1) & C1 & L1); [intros v Hv; apply Cu; apply in_or_app; auto|]. destruct IHb as (b' & (n2 & E2) & C2 & L2); [intros v Hv; apply Cu; apply in_or_app; auto|]. exists (umax a' b'). split; [exists (max n1 n2); intros n Hn; cbn; rewrite E1 by lia; cbn; rewrite E2 by lia; done|]. split; [intros v Hv; apply names_umax in Hv as [?|?]; auto|].
    intros [S1 S2] r. cbn. rewrite <- L1, <- L2 by done. apply C89_operations.
  - destruct IHa as (a' & (n1 & E1) & C1 & L1); [intros v Hv; apply Cu; apply in_or_app; auto|]. destruct IHb as (b' & (n2 & E2) & C2 & L2); [intros v Hv; apply Cu; apply in_or_app; auto|]. destruct (C89_operations (fun _ => 0%N) a' b') as (_ & _ & K). destruct (K C1 C2) as (c & (n3 & E3) & L3). exists c. split; [exists (max (max n1 n2) n3); intros n Hn; cbn; rewrite E1 by lia; cbn; rewrite E2 by lia; cbn; apply E3; lia|]. split; [eapply clean_imax; [exact C1|exact C2|]; apply E3; reflexivity|].
    intros [S1 S2] r. cbn. rewrite <- L1, <- L2 by done. apply L3.
Qed.
(** Instantiating universe variables: the instance is worth what the level is worth when each variable is worth its replacement. *)
Theorem C89_instance : forall s u, clean_map s -> clean u -> exists u', eventually (fun n => usubst n s u) u' /\ clean u' /\ (steps_ok s u -> forall r, level r u' = level (instance s r) u).
Proof. exact usubst_ok. Qed.
Lemma eventually_fun {A} (f : nat -> option A) x y : eventually f x -> eventually f y -> x = y.
Proof. intros (n & E) (m & E'). specialize (E (max n m) ltac:(lia)). specialize (E' (max n m) ltac:(lia)). congruence. Qed.
(** So an accepted inequality holds of all instances, save those that make the greater side SProp or take the successor of Prop. *)
Theorem C89_stable : forall s a b a' b', clean_map s -> clean a -> clean b -> steps_ok s a -> steps_ok s b -> eventually (fun n => level_leq n a b) true ->
  eventually (fun n => usubst n s a) a' -> eventually (fun n => usubst n s b) b' -> b' <> SPrp -> eventually (fun n => level_leq n a' b') true.
Proof.
  intros s a b a' b' Cs Ca Cb Sa Sb H Ea Eb Nb. destruct (usubst_ok s a Cs Ca) as (x & Ex & Cx & Lx). destruct (usubst_ok s b Cs Cb) as (y & Ey & Cy & Ly). rewrite (eventually_fun _ _ _ Ea Ex) in *. rewrite (eventually_fun _ _ _ Eb Ey) in *.
  destruct (C89_decides a b Ca Cb) as (o & Eo & Ho). rewrite (eventually_fun _ _ _ Eo H) in Ho. destruct Ho as [Ho _]. specialize (Ho eq_refl). destruct (C89_decides x y Cx Cy) as (p & Ep & Hp). assert (p = true) as ->; [|done]. apply Hp. destruct (sprp_dec x) as [->|Nx]; [now left|]. right. split; [done|]. split; [done|]. intros r. rewrite Lx, Ly by done.
  destruct Ho as [->|(_ & _ & Ho)]; [|apply Ho]. exfalso. apply Nx. destruct Ex as (n & Ex). specialize (Ex n ltac:(lia)). cbn in Ex. congruence.
Qed.
Definition one (v : name) (w : universe) : name -> option universe := fun x => if decide (x = v) then Some w else None.
Example C89_stable_ex : let u := [117%N] in let s := one u (UIMax (Typ 4) (UVar [118%N])) in let a := UIMax (UVar u) (USucc (UVar u)) in let b := USucc (UVar u) in
  clean_map s /\ clean a /\ clean b /\ steps_ok s a /\ level_leq 20 a b = Some true /\ usubst 20 s a = Some (UMax (UIMax (Typ 4) (UVar [118%N])) (USucc (UIMax (Typ 4) (UVar [118%N])))) .
Proof.
  cbn zeta. split; [|split; [|split; [|split; [|vm_compute; done]]]].
  - intros v w. unfold one. destruct (decide _); [|done]. intros [= <-] x [<-|[]]. cbn. intros [?|[]]. discriminate.
  - intros v [<-|[<-|[]]]; cbn; intros [?|[]]; discriminate.
  - intros v [<-|[]]; cbn; intros [?|[]]; discriminate.
  - cbn. split; [done|]. split; [done|]. intros x (n & E). specialize (E n ltac:(lia)). injection E as <-. done.
Qed.

(** ** Limits *)
(** A variable that already has the mark in its name is confused with the one made for the positive case. *)
Theorem C89_mark_refuted : exists a b, eventually (fun n => level_leq n a b) true /\ ~ at_most a b.
Proof.
  exists (UIMax (Typ 0) (UVar [117%N])), (USucc (UVar (marked [117%N]))). split.
  - exists 10. intros n Hn. do 10 (destruct n as [|n]; [exfalso; lia|]). vm_compute. done.
  - intros [H|(_ & _ & H)]; [done|]. specialize (H (fun v => if decide (v = [117%N]) then 5%N else 0%N)). vm_compute in H. done.
Qed.
(** Succ of a variable is one more, but the successor of Prop is Type 1, two more; so an accepted inequality can fail of the instance at Prop. *)
Theorem C89_prop_refuted : exists s a b a' b', clean_map s /\ clean a /\ clean b /\ eventually (fun n => level_leq n a b) true /\
  eventually (fun n => usubst n s a) a' /\ eventually (fun n => usubst n s b) b' /\ b' <> SPrp /\ eventually (fun n => level_leq n a' b') false.
Proof.
  exists (one [117%N] Prp), (USucc (UVar [117%N])), (UMax (Typ 0) (UIMax (USucc (UVar [117%N])) (UVar [117%N]))), (Typ 1), (Typ 0). split; [|split; [|split]].
  - intros v w. unfold one. destruct (decide _); [|done]. intros [= <-] x [].
  - intros v [<-|[]]; cbn; intros [?|[]]; discriminate.
  - intros v [<-|[<-|[]]]; cbn; intros [?|[]]; discriminate.
  - split; [exists 10; intros n Hn; do 10 (destruct n as [|n]; [exfalso; lia|]); vm_compute; done|]. split; [exists 0; done|]. split; [exists 0; done|]. split; [done|]. exists 10. intros n Hn. do 10 (destruct n as [|n]; [exfalso; lia|]). vm_compute. done.
Qed.
(** Prop is accepted below every variable, but is not below the instance at SProp. *)
Theorem C89_sprop_refuted : exists s a b a' b', clean_map s /\ clean a /\ clean b /\ steps_ok s a /\ steps_ok s b /\ eventually (fun n => level_leq n a b) true /\
  eventually (fun n => usubst n s a) a' /\ eventually (fun n => usubst n s b) b' /\ eventually (fun n => level_leq n a' b') false.
Proof.
  exists (one [117%N] SPrp), Prp, (UVar [117%N]), Prp, SPrp. split; [intros v w; unfold one; destruct (decide _); [|done]; intros [= <-] x []|]. split; [intros v []|]. split; [intros v [<-|[]]; cbn; intros [?|[]]; discriminate|]. split; [done|]. split; [done|].
  split; [exists 10; intros n Hn; do 10 (destruct n as [|n]; [exfalso; lia|]); vm_compute; done|]. split; [exists 0; done|]. split; exists 0; done.
Qed.
(** In a release build the last Type lives in Type 0. *)
Theorem C89_wrap_refuted : exists u, (forall r, level r (succ u) < level r u)%N /\ eventually (fun n => level_leq n (succ u) (Typ 0)) true.
Proof. exists (Typ (2 ^ 32 - 1)). split; [intros r; vm_compute; done|]. exists 5. intros n Hn. do 5 (destruct n as [|n]; [exfalso; lia|]). vm_compute. done. Qed.
