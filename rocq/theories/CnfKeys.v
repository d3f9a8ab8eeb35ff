(** When two atoms share a key (and hence a variable). *)
From Coq Require Import String Ascii List Arith Bool Lia.
From stdpp Require Import gmap strings list.
From Verif Require Import UnifyModel UnifyProofs RupModel CnfModel CnfProofs.
Local Open Scope list_scope.

(** Names without the characters the keys use as punctuation. *)
Definition punctuation : list ascii := list_ascii_of_string "(),=?<:".
Definition plain_char (a : ascii) : Prop := a ∉ punctuation.
Definition plain (s : string) : Prop := s <> ""%string /\ Forall plain_char (list_ascii_of_string s).
Fixpoint clean_term (t : pterm) : Prop :=
  match t with
  | PConst s | PVar s | PBound s => plain s
  | PFun n l => plain n /\ foldr (fun t P => clean_term t /\ P) True l
  | PGroup _ => False
  end.
(** A reference to a bound variable and a variable of that name have the same key. *)
Fixpoint norm (t : pterm) : pterm :=
  match t with PBound s => PVar s | PFun n l => PFun n (map norm l) | PGroup l => PGroup (map norm l) | _ => t end.

Notation chars := list_ascii_of_string.
Lemma chars_app a b : chars (a +:+ b) = chars a ++ chars b.
Proof. induction a as [| c a IH]; [reflexivity |]. change (chars (String c a +:+ b)) with (c :: chars (a +:+ b)). rewrite IH. reflexivity. Qed.
Lemma chars_inj a b : chars a = chars b -> a = b.
Proof. intros H. rewrite <- (string_of_list_ascii_of_string a), <- (string_of_list_ascii_of_string b), H. reflexivity. Qed.

Definition ends (r : list ascii) : Prop := match r with [] => True | c :: _ => c ∈ punctuation end.
Definition stop (r : list ascii) : Prop := match r with [] => True | c :: _ => c = ")"%char \/ c = ","%char \/ c = "="%char end.
Lemma stop_ends r : stop r -> ends r.
Proof. destruct r as [| c r]; [auto |]. cbn. intros [-> | [-> | ->]]; apply elem_of_list_In; cbn; tauto. Qed.
Lemma name_prefix n m r r' : Forall plain_char n -> Forall plain_char m -> ends r -> ends r' -> n ++ r = m ++ r' -> n = m /\ r = r'.
Proof.
  revert m. induction n as [| c n IH]; intros [| d m] Hn Hm Hr Hr' E; cbn in *.
  - auto.
  - subst r. cbn in Hr. apply Forall_cons_1 in Hm as [Hd _]. contradiction.
  - subst r'. cbn in Hr'. apply Forall_cons_1 in Hn as [Hc _]. contradiction.
  - apply Forall_cons_1 in Hn as [_ Hn], Hm as [_ Hm]. injection E as -> E. destruct (IH m Hn Hm Hr Hr' E) as [-> ->]. auto.
Qed.
Lemma plain_head s : plain s -> exists c w, chars s = c :: w /\ plain_char c.
Proof. intros [N F]. destruct s as [| c s]; [congruence |]. cbn in *. apply Forall_cons_1 in F as [F _]. eauto. Qed.
Lemma in_punct c : In c punctuation -> c ∈ punctuation.
Proof. apply elem_of_list_In. Qed.
Ltac punct := apply in_punct; cbn; tauto.

(** The first character of a clean term's key. *)
Lemma key_head t : clean_term t -> exists c w, chars (term_key t) = c :: w /\ c <> ")"%char /\ (plain_char c \/ c = "?"%char).
Proof.
  assert (forall c, plain_char c -> c <> ")"%char) as P by (intros c H ->; apply H; punct).
  destruct t as [s | s | n l | l | s]; cbn [clean_term term_key]; intros H; try contradiction.
  - destruct (plain_head s H) as (c & w & -> & Hc). exists c, w. auto.
  - exists "?"%char, (chars s). cbn. split; [reflexivity | split; [discriminate | auto]].
  - destruct (plain_head n (proj1 H)) as (c & w & E & Hc). rewrite chars_app, E. exists c. eexists. cbn. split; [reflexivity | auto].
  - exists "?"%char, (chars s). cbn. split; [reflexivity | split; [discriminate | auto]].
Qed.
Definition key_of_args (l : list pterm) : list ascii := chars (join (map term_key l)).
Lemma join_cons s l : join (s :: l) = match l with [] => s | _ => s +:+ "," +:+ join l end.
Proof. destruct l; reflexivity. Qed.
Lemma key_of_args_cons t l : key_of_args (t :: l) = chars (term_key t) ++ match l with [] => [] | _ => ","%char :: key_of_args l end.
Proof.
  unfold key_of_args. cbn [map]. rewrite join_cons. destruct l as [| u l]; cbn [map]; [rewrite app_nil_r; reflexivity |].
  rewrite !chars_app. reflexivity.
Qed.
Definition clean_args (l : list pterm) : Prop := foldr (fun t P => clean_term t /\ P) True l.
Definition readable (t : pterm) : Prop := forall u r r', clean_term t -> clean_term u -> stop r -> stop r' ->
  chars (term_key t) ++ r = chars (term_key u) ++ r' -> norm t = norm u /\ r = r'.
Lemma args_prefix l : Forall readable l -> forall m r r', clean_args l -> clean_args m ->
  key_of_args l ++ ")"%char :: r = key_of_args m ++ ")"%char :: r' -> map norm l = map norm m /\ r = r'.
Proof.
  induction l as [| t l IH]; intros R m r r' Hl Hm E.
  - destruct m as [| u m]; [injection E as <-; auto |]. exfalso. destruct Hm as [Hu _]. destruct (key_head u Hu) as (c & w & Ec & N & _).
    rewrite key_of_args_cons, Ec in E. cbn in E. congruence.
  - destruct m as [| u m].
    { exfalso. destruct Hl as [Hu _]. destruct (key_head t Hu) as (c & w & Ec & N & _). rewrite key_of_args_cons, Ec in E. cbn in E. congruence. }
    apply Forall_cons_1 in R as [R1 R2]. destruct Hl as [Ht Hl], Hm as [Hu Hm]. rewrite !key_of_args_cons in E. rewrite <- !(assoc_L (++)) in E.
    assert (S1 : stop (match l with [] => [] | _ => ","%char :: key_of_args l end ++ ")"%char :: r)) by (destruct l; cbn; auto).
    assert (S2 : stop (match m with [] => [] | _ => ","%char :: key_of_args m end ++ ")"%char :: r')) by (destruct m; cbn; auto).
    destruct (R1 u _ _ Ht Hu S1 S2 E) as [En E'].
    destruct l as [| t' l], m as [| u' m]; cbn [app] in E'.
    + injection E' as <-. cbn. rewrite En. auto.
    + discriminate.
    + discriminate.
    + injection E' as E'. destruct (IH R2 (u' :: m) r r' Hl Hm E') as [A B]. cbn [map] in *. rewrite En, A. auto.
Qed.
Lemma term_readable t : readable t.
Proof.
  induction t as [s | s | s | n l IH | l IH] using pterm_ind'; intros u r r' Ht Hu Hr Hr' E; cbn [clean_term term_key] in *; try contradiction.
  - destruct u as [s' | s' | n' l' | l' | s']; cbn [clean_term term_key] in *; try contradiction.
    + destruct (name_prefix _ _ _ _ (proj2 Ht) (proj2 Hu) (stop_ends _ Hr) (stop_ends _ Hr') E) as [A ->]. apply chars_inj in A as ->. auto.
    + exfalso. destruct (plain_head s Ht) as (c & w & Ec & P). rewrite Ec in E. cbn in E. injection E as -> _. apply P. punct.
    + exfalso. rewrite chars_app, <- (assoc_L (++)) in E.
      destruct (name_prefix (chars s) (chars n') r (chars ("(" +:+ join (map term_key l') +:+ ")") ++ r') (proj2 Ht) (proj2 (proj1 Hu)) (stop_ends _ Hr)) as [_ A]; [cbn; punct | exact E |].
      subst r. cbn in Hr. destruct Hr as [? | [? | ?]]; discriminate.
    + exfalso. destruct (plain_head s Ht) as (c & w & Ec & P). rewrite Ec in E. cbn in E. injection E as -> _. apply P. punct.
  - assert (forall s', plain s' -> "?"%char :: chars s ++ r = "?"%char :: chars s' ++ r' -> PVar s = PVar s' /\ r = r') as V.
    { intros s' P' E'. injection E' as E'. destruct (name_prefix _ _ _ _ (proj2 Ht) (proj2 P') (stop_ends _ Hr) (stop_ends _ Hr') E') as [A ->]. apply chars_inj in A as ->. auto. }
    destruct u as [s' | s' | n' l' | l' | s']; cbn [clean_term term_key] in *; try contradiction; try (apply V; [exact Hu | exact E]).
    + exfalso. destruct (plain_head s' Hu) as (c & w & Ec & P). rewrite Ec in E. cbn in E. injection E as <- _. apply P. punct.
    + exfalso. destruct (plain_head n' (proj1 Hu)) as (c & w & Ec & P). rewrite (chars_app n'), Ec in E. cbn in E. injection E as <- _. apply P. punct.
  - assert (forall s', plain s' -> "?"%char :: chars s ++ r = "?"%char :: chars s' ++ r' -> PVar s = PVar s' /\ r = r') as V.
    { intros s' P' E'. injection E' as E'. destruct (name_prefix _ _ _ _ (proj2 Ht) (proj2 P') (stop_ends _ Hr) (stop_ends _ Hr') E') as [A ->]. apply chars_inj in A as ->. auto. }
    destruct u as [s' | s' | n' l' | l' | s']; cbn [clean_term term_key] in *; try contradiction; try (apply V; [exact Hu | exact E]).
    + exfalso. destruct (plain_head s' Hu) as (c & w & Ec & P). rewrite Ec in E. cbn in E. injection E as <- _. apply P. punct.
    + exfalso. destruct (plain_head n' (proj1 Hu)) as (c & w & Ec & P). rewrite (chars_app n'), Ec in E. cbn in E. injection E as <- _. apply P. punct.
  - destruct u as [s' | s' | n' l' | l' | s']; cbn [clean_term term_key] in *; try contradiction.
    + exfalso. rewrite chars_app, <- (assoc_L (++)) in E.
      destruct (name_prefix (chars n) (chars s') (chars ("(" +:+ join (map term_key l) +:+ ")") ++ r) r' (proj2 (proj1 Ht)) (proj2 Hu)) as [_ A]; [cbn; punct | apply stop_ends; exact Hr' | exact E |].
      subst r'. cbn in Hr'. destruct Hr' as [? | [? | ?]]; discriminate.
    + exfalso. destruct (plain_head n (proj1 Ht)) as (c & w & Ec & P). rewrite (chars_app n), Ec in E. cbn in E. injection E as -> _. apply P. punct.
    + rewrite !chars_app, <- !(assoc_L (++)) in E.
      destruct (name_prefix (chars n) (chars n') ("("%char :: key_of_args l ++ ")"%char :: r) ("("%char :: key_of_args l' ++ ")"%char :: r') (proj2 (proj1 Ht)) (proj2 (proj1 Hu))) as [A B]; [cbn; punct | cbn; punct | exact E |].
      injection B as B. destruct (args_prefix l IH l' r r' (proj2 Ht) (proj2 Hu) B) as [C ->]. apply chars_inj in A as ->. cbn. rewrite C. auto.
    + exfalso. destruct (plain_head n (proj1 Ht)) as (c & w & Ec & P). rewrite (chars_app n), Ec in E. cbn in E. injection E as -> _. apply P. punct.
Qed.

(** Atoms that any interpretation of predicates and equality must treat alike. *)
Definition same_atom (a b : pexpr) : Prop :=
  match a, b with
  | EPred p l w, EPred q m v => p = q /\ map norm l = map norm m /\ w = v
  | EIdent x y, EIdent x' y' => (norm x = norm x' /\ norm y = norm y') \/ (norm x = norm y' /\ norm y = norm x')
  | EAtom s, EAtom t => s = t
  | _, _ => False
  end.
Definition clean_atom (a : pexpr) : Prop :=
  match a with
  | EPred p l w => plain p /\ clean_args l /\ w = None
  | EIdent x y => clean_term x /\ clean_term y
  | EAtom _ => True
  | _ => False
  end.
Lemma atom_key_sound a b k : clean_atom a -> clean_atom b -> atom_key a = Some k -> atom_key b = Some k -> same_atom a b.
Proof.
  assert (forall p l, chars (p +:+ "(" +:+ join (map term_key l) +:+ ")") = chars p ++ "("%char :: key_of_args l ++ [")"%char]) as KP.
  { intros p l. rewrite !chars_app. reflexivity. }
  assert (forall x y, exists lo hi, atom_key (EIdent x y) = Some ("=" +:+ term_key lo +:+ "=" +:+ term_key hi) /\ ((lo = x /\ hi = y) \/ (lo = y /\ hi = x))) as KI.
  { intros x y. cbn. destruct (String.leb (term_key x) (term_key y)); [exists x, y | exists y, x]; auto. }
  assert (forall lo hi, chars ("=" +:+ term_key lo +:+ "=" +:+ term_key hi) = "="%char :: chars (term_key lo) ++ "="%char :: chars (term_key hi)) as KI2.
  { intros lo hi. rewrite !chars_app. reflexivity. }
  assert (forall p l s, plain p -> chars (p +:+ "(" +:+ join (map term_key l) +:+ ")") <> chars ("atom:" +:+ s)) as PA.
  { intros p l s P E. rewrite KP in E. change (chars ("atom:" +:+ s)) with (chars "atom" ++ ":"%char :: chars s) in E.
    destruct (name_prefix (chars p) (chars "atom") ("("%char :: key_of_args l ++ [")"%char]) (":"%char :: chars s) (proj2 P)) as [_ A].
    - repeat constructor; intros H; apply elem_of_list_In in H; cbn in H; decompose [or] H; congruence.
    - cbn. punct.
    - cbn. punct.
    - exact E.
    - discriminate. }
  assert (forall p l x, plain p -> chars (p +:+ "(" +:+ join (map term_key l) +:+ ")") <> "="%char :: x) as PI.
  { intros p l x P E. rewrite KP in E. destruct (plain_head p P) as (c & w & Ec & Pc). rewrite Ec in E. cbn in E. injection E as -> _. apply Pc. punct. }
  destruct a as [p l w | x y | s | k1 a1 a2 | a1 | q1 x1 a1 | o1 a1 | o1 a1 a2 | n1], b as [q m v | x' y' | t | k2 b1 b2 | b1 | q2 x2 b1 | o2 b1 | o2 b1 b2 | n2]; cbn [clean_atom]; try contradiction; intros Ha Hb Ea Eb.
  - injection Ea as <-. injection Eb as Eb. apply (f_equal chars) in Eb. rewrite !KP in Eb.
    destruct Ha as (P & L & ->), Hb as (Q & M & ->).
    destruct (name_prefix (chars q) (chars p) ("("%char :: key_of_args m ++ [")"%char]) ("("%char :: key_of_args l ++ [")"%char]) (proj2 Q) (proj2 P)) as [A B]; [cbn; punct | cbn; punct | exact Eb |].
    injection B as B. destruct (args_prefix m) with (m := l) (r := @nil ascii) (r' := @nil ascii) as [C _]; [| exact M | exact L | exact B |].
    { clear. induction m; constructor; [apply term_readable | assumption]. }
    apply chars_inj in A as ->. cbn. auto.
  - exfalso. destruct (KI x' y') as (lo & hi & E & _). rewrite E in Eb. injection Ea as <-. injection Eb as Eb. apply (f_equal chars) in Eb. rewrite KI2 in Eb. symmetry in Eb. apply PI in Eb; [exact Eb | apply Ha].
  - exfalso. injection Ea as <-. injection Eb as Eb. apply (f_equal chars) in Eb. symmetry in Eb. apply PA in Eb; [exact Eb | apply Ha].
  - exfalso. destruct (KI x y) as (lo & hi & E & _). rewrite E in Ea. injection Eb as <-. injection Ea as Ea. apply (f_equal chars) in Ea. rewrite KI2 in Ea. symmetry in Ea. apply PI in Ea; [exact Ea | apply Hb].
  - destruct (KI x y) as (lo & hi & E & Hlo), (KI x' y') as (lo' & hi' & E' & Hlo'). rewrite E in Ea. rewrite E' in Eb. rewrite <- Ea in Eb. apply (inj Some) in Eb.
    apply (f_equal chars) in Eb. rewrite !KI2 in Eb.
    assert (clean_term lo /\ clean_term hi /\ clean_term lo' /\ clean_term hi') as (C1 & C2 & C3 & C4).
    { destruct Ha, Hb. destruct Hlo as [[-> ->] | [-> ->]], Hlo' as [[-> ->] | [-> ->]]; auto. }
    injection Eb as Eb.
    destruct (term_readable lo' lo ("="%char :: chars (term_key hi')) ("="%char :: chars (term_key hi)) C3 C1) as [A B]; [cbn; auto | cbn; auto | exact Eb |].
    injection B as B. destruct (term_readable hi' hi [] [] C4 C2) as [C _]; [exact I | exact I | rewrite !app_nil_r; exact B |].
    cbn. destruct Hlo as [[-> ->] | [-> ->]], Hlo' as [[-> ->] | [-> ->]]; auto.
  - exfalso. destruct (KI x y) as (lo & hi & E & _). rewrite E in Ea. injection Eb as <-. discriminate.
  - exfalso. injection Ea as <-. injection Eb as Eb. apply (f_equal chars) in Eb. apply PA in Eb; [exact Eb | apply Hb].
  - exfalso. destruct (KI x' y') as (lo & hi & E & _). rewrite E in Eb. injection Ea as <-. discriminate.
  - injection Ea as <-. injection Eb as ->. reflexivity.
Qed.
