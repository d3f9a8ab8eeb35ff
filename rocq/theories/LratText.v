(** Hint synthesis, and the text of proofs. *)
From Coq Require Import List Bool ZArith NArith Lia Sorting.Permutation.
From stdpp Require Import list gmap.
From Verif Require Import DimacsModel DimacsProofs RupModel RupProofs RupProps PrModel PrProofs PrProps LratModel LratProofs.

Implicit Types (a : assign) (db : list (N * clause)).

(** ** Hints are found exactly for RUP clauses, and replay *)
Section Hints.
Variables (n : nat) (db : list (N * clause)) (m : gmap N clause).
Hypotheses (Uq : unique db) (Rep : forall id c, (id, c) ∈ db <-> m !! id = Some c) (Rg : db_in_range n (map snd db)).
Lemma hints_steps_ok c0 a0 : length a0 = n -> (forall l, is_t a0 l <-> neg_of c0 l) -> forall j t tr, trail_ok n db c0 t tr ->
  match propagate_steps j (map snd db) (t_assign t) with
  | None => True
  | Some b => exists r, hints_steps j db t = Some r /\ (b = true <-> r <> None) /\ forall ch, r = Some ch -> replay m a0 ch = Some true
  end.
Proof.
  intros La A. induction j as [|j IH]; intros t tr T; cbn [propagate_steps hints_steps]; [done|].
  pose proof (pass_ids_ok n db c0 db t tr false T Rg (fun x H => H)) as P. destruct (pass (t_assign t) false (map snd db)) as [[|a ch]|]; [| |done].
  - destruct P as (id & c & t' & tr' & -> & T' & Hc & F). destruct (chain_ok n db c0 t' tr' T' Uq m Rep Rg c id Hc F) as (ch & -> & R). eexists. split; [reflexivity|].
    split; [done|]. intros ch' [= <-]. auto.
  - destruct P as (t' & tr' & -> & <- & T'). destruct ch; [exact (IH t' tr' T')|]. exists None. done.
Qed.
Lemma rup_hints_ok c : in_range n c -> exists r, rup_hints n db c = Some r /\
  is_rup n (map snd db) c = Some (match r with Some _ => true | None => false end) /\ forall ch, r = Some ch -> verify_rup_step n m c ch = Some true.
Proof.
  intros Rc. unfold rup_hints, verify_rup_step. destruct (is_rup_ok n (map snd db) c Rg Rc) as (b & E & _). revert E. unfold is_rup.
  pose proof (assume_trail_ok n db c [] _ [] (empty_ok n db)) as P. cbn [t_assign app] in P.
  destruct (assume_ok n (map snd db) c c (replicate n None)) as (r & Ea & S); [apply replicate_length|done|done| |auto|].
  { intros l H. apply (agrees_empty (fun _ => true)) in H as H1. apply (agrees_empty (fun _ => false)) in H. unfold lit_true in *. congruence. }
  rewrite Ea in P |- *. destruct r as [a0|].
  - destruct P as (t & tr & -> & <- & T); [intros i l o H; by rewrite lookup_nil in H|]. destruct S as [La A]. unfold propagate. rewrite La. intros E.
    pose proof (hints_steps_ok c (t_assign t) La A (S n) t tr T) as H. rewrite E in H. destruct H as (r & -> & H1 & H2). exists r. split; [done|]. split; [|done]. rewrite E. f_equal.
    destruct r, b; try done; [by apply H1|]. by destruct (proj1 H1 eq_refl).
  - rewrite P; [|intros i l o H; by rewrite lookup_nil in H]. intros [= <-]. exists (Some []). split; [done|]. split; [done|]. done.
Qed.
End Hints.
Lemma replay_ids m : forall hints a, replay m a hints = Some true -> forall h, h ∈ hints -> is_Some (m !! h).
Proof.
  induction hints as [|h hints IH]; intros a; cbn [replay]; [done|]. destruct (m !! h) as [c|] eqn:L; [|done]. destruct (scan a [] c) as [[|[|u [|]]]|]; try done.
  - destruct hints; [|done]. intros _ x Hx. apply elem_of_list_singleton in Hx as ->. by rewrite L.
  - destruct (set_true a u) as [[a' b]|]; [|done]. intros H x [->|Hx]%elem_of_cons; [by rewrite L|eauto].
Qed.

(** ** Text *)
Open Scope N_scope.
Definition i64 (z : Z) : Prop := (- 2 ^ 63 <= z < 2 ^ 63)%Z.
Lemma show_numeral z : i64 z -> parse_i64 (show z) = Some z.
Proof.
  intros R. apply numeral_spec. unfold show. exists (dec (Z.abs_N z)), (Z.abs_N z). split; [apply dec_spec|]. unfold i64 in R.
  destruct (Z.ltb_spec z 0); [right|left]; (split; [auto|]); lia.
Qed.
Lemma show_shape z : no_ws (show z) /\ exists x r, show z = x :: r /\ (x = 45 \/ is_digit x).
Proof.
  unfold show. pose proof (dec_no_ws (Z.abs_N z)) as W. destruct (dec_spec (Z.abs_N z)) as (N & F & _). destruct (z <? 0)%Z.
  - split; [constructor; [done|exact W]|eauto].
  - split; [exact W|]. destruct (dec (Z.abs_N z)) as [|x r]; [done|]. inversion F; subst. eauto.
Qed.
Lemma split_spaced zs s : split_from [] (spaced zs ++ s) = map show zs ++ split_from [] s.
Proof.
  induction zs as [|z zs IH]; [done|]. cbn [map app]. change (spaced (z :: zs)) with ((show z ++ [32]) ++ spaced zs). rewrite <- !app_assoc. cbn [app].
  destruct (show_shape z) as [W (x & r & E & _)]. rewrite split_word; [|done|done|by rewrite E]. by rewrite IH.
Qed.
Lemma until_ok zs rest : Forall (fun z => i64 z /\ z <> 0%Z) zs -> until_zero (map show zs ++ [48] :: rest) = Some (zs, true, rest).
Proof.
  induction 1 as [|z zs [R N] F IH]; [done|]. cbn [map app until_zero]. rewrite show_numeral by done. rewrite (proj2 (Z.eqb_neq z 0) N), IH. done.
Qed.
Definition no_nl (s : text) : Prop := Forall (fun x : N => x <> 10) s.
Lemma no_ws_nl s : no_ws s -> no_nl s.
Proof. intros H. eapply Forall_impl; [exact H|]. cbv beta. intros c E ->. done. Qed.
Lemma spaced_nl zs : no_nl (spaced zs).
Proof.
  induction zs as [|z zs IH]; [constructor|]. change (spaced (z :: zs)) with ((show z ++ [32]) ++ spaced zs). unfold no_nl. rewrite !Forall_app.
  split; [split|done]; [apply no_ws_nl, show_shape|constructor; done].
Qed.
Lemma push_nl c : no_nl (push_clause c).
Proof. unfold push_clause, no_nl. rewrite Forall_app. split; [apply spaced_nl|by constructor]. Qed.
Lemma trim_ends (c : N) r d r' : is_ws c = false -> is_ws d = false -> c :: r = r' ++ [d] -> trim (c :: r) = c :: r.
Proof.
  intros A B E. unfold trim. cbn [trim_start]. rewrite A, E. rewrite rev_app_distr. cbn [rev app trim_start]. rewrite B. cbn [rev]. by rewrite rev_involutive.
Qed.
(** A line that begins with a sign, a digit or d and ends with 0. *)
Definition lead (x : N) : Prop := x = 45 \/ is_digit x \/ x = 100.
Lemma lead_line x r r' : lead x -> x :: r = r' ++ [48] -> trim (x :: r) = x :: r /\ skipped (x :: r) = false.
Proof.
  intros L E. split.
  - eapply (trim_ends x r 48 r'); [|reflexivity|exact E]. destruct L as [->|[L| ->]]; [done|by apply digit_no_ws|done].
  - cbn. apply N.eqb_neq. unfold lead, is_digit in L. lia.
Qed.
Definition text_lines (ls : list text) : text := concat (map (fun l => l ++ [10]) ls).
Lemma lines_text ls : Forall no_nl ls -> lines (text_lines ls) = ls ++ [[]].
Proof.
  unfold lines. induction 1 as [|l ls H F IH]; [done|]. change (text_lines (l :: ls)) with ((l ++ [10]) ++ text_lines ls). rewrite <- app_assoc. cbn [app].
  rewrite lines_step; [by rewrite IH|]. apply List.Forall_forall. intros x Hx. unfold no_nl in H. rewrite Forall_forall in H. apply H. by apply elem_of_list_In.
Qed.
Lemma dimacs_ok l : N.of_nat (lvar l) < 2 ^ 31 -> i64 (dimacs l) /\ dimacs l <> 0%Z /\ lit_of_int (dimacs l) = l.
Proof.
  intros L. destruct l as [v b]. cbn [lvar] in L. unfold i64, dimacs, lit_of_int. cbn [lvar lpos].
  split; [|split]; [destruct b; lia..|].
  assert (E : (Z.abs_N (if b then Z.of_nat (v + 1) else - Z.of_nat (v + 1)) - 1 = N.of_nat v)) by (destruct b; lia). rewrite E.
  rewrite N.mod_small by lia. rewrite Nat2N.id. f_equal. destruct b; [apply Z.ltb_lt|apply Z.ltb_ge]; lia.
Qed.
Lemma push_clause_eq c : push_clause c = spaced (map dimacs c) ++ [48].
Proof. done. Qed.
Definition small (c : clause) : Prop := forall l, l ∈ c -> N.of_nat (lvar l) < 2 ^ 31.
Lemma until_clause c rest : small c -> exists zs, map dimacs c = zs /\ until_zero (map show zs ++ [48] :: rest) = Some (zs, true, rest) /\ map lit_of_int zs = c.
Proof.
  intros S. exists (map dimacs c). split; [done|]. split.
  - apply until_ok. apply Forall_forall. intros z Hz. apply elem_of_list_In, in_map_iff in Hz as (l & <- & Hl). apply elem_of_list_In in Hl. destruct (dimacs_ok l (S l Hl)) as (A & B & _). done.
  - induction c as [|l c IH]; [done|]. cbn. rewrite (proj2 (proj2 (dimacs_ok l (S l (elem_of_list_here _ _))))), IH; [done|]. intros k Hk. apply S. by right.
Qed.
Lemma split_zero s : split_from [] (48 :: 32 :: s) = [48] :: split_from [] s.
Proof. done. Qed.
Lemma tokens_clause c : split_whitespace (push_clause c) = map show (map dimacs c) ++ [[48]].
Proof. unfold split_whitespace, push_clause. by rewrite split_spaced. Qed.
Lemma tokens_two c w : split_whitespace (push_clause c ++ [32] ++ push_clause w) = map show (map dimacs c) ++ [48] :: map show (map dimacs w) ++ [[48]].
Proof. unfold split_whitespace, push_clause. rewrite <- !app_assoc. rewrite split_spaced. f_equal. cbn [app]. rewrite split_zero. by rewrite split_spaced. Qed.
Lemma push_lead c : exists x r r', push_clause c = x :: r /\ (x = 45 \/ is_digit x) /\ push_clause c = r' ++ [48].
Proof.
  unfold push_clause. destruct c as [|l c].
  - exists 48, [], []. split; [done|]. split; [right; unfold is_digit; lia|done].
  - cbn [map]. change (spaced (dimacs l :: map dimacs c)) with ((show (dimacs l) ++ [32]) ++ spaced (map dimacs c)). destruct (show_shape (dimacs l)) as [_ (x & r & -> & L)].
    eexists x, _, _. split; [reflexivity|]. split; [done|]. reflexivity.
Qed.
(** The first token is not d. *)
Lemma not_d_token zs rest : exists tok toks, map show zs ++ [48] :: rest = tok :: toks /\ exists x r, tok = x :: r /\ x <> 100.
Proof.
  destruct zs as [|z zs]; cbn; [exists [48], rest; split; [done|]; exists 48, []; done|]. destruct (show_shape z) as [_ (x & r & E & L)]. rewrite E.
  eexists _, _. split; [reflexivity|]. exists x, r. split; [done|]. unfold is_digit in L. lia.
Qed.
Lemma parse_other line x r toks : split_whitespace line = (x :: r) :: toks -> x <> 100 -> parse_line line =
  match until_zero ((x :: r) :: toks) with
  | Some (ns, true, []) => Some (SRup (map lit_of_int ns))
  | Some (ns, true, rest) => match until_zero rest with Some (ws, _, _) => Some (SPr (map lit_of_int ns) (WAssignment (map lit_of_int ws))) | None => None end
  | _ => None
  end.
Proof.
  intros E N. unfold parse_line. rewrite E. destruct x as [|p]; [done|]. repeat (destruct p as [p|p|]; try reflexivity). done.
Qed.
Lemma parse_rup c : small c -> parse_line (push_clause c) = Some (SRup c).
Proof.
  intros S. destruct (until_clause c [] S) as (zs & E & U & M). pose proof (tokens_clause c) as T. rewrite E in T. destruct (not_d_token zs []) as (tok & toks & Et & x & r & -> & N).
  rewrite Et in T, U. rewrite (parse_other _ _ _ _ T N), U, M. done.
Qed.
Lemma parse_pr c w : small c -> small w -> parse_line (push_clause c ++ [32] ++ push_clause w) = Some (SPr c (WAssignment w)).
Proof.
  intros S Sw. destruct (until_clause w [] Sw) as (ws & Ew & Uw & Mw). destruct (until_clause c (map show ws ++ [[48]]) S) as (zs & E & U & M). pose proof (tokens_two c w) as T. rewrite E, Ew in T.
  destruct (not_d_token zs (map show ws ++ [[48]])) as (tok & toks & Et & x & r & -> & N). rewrite Et in T, U. rewrite (parse_other _ _ _ _ T N), U, M.
  destruct (map show ws ++ [[48]]) as [|t ts] eqn:Q; [by destruct (map show ws)|]. rewrite Uw, Mw. done.
Qed.
Lemma parse_delete c : small c -> parse_line ([100; 32] ++ push_clause c) = Some (SDelete c).
Proof.
  intros S. destruct (until_clause c [] S) as (zs & E & U & M). unfold parse_line. assert (T : split_whitespace ([100; 32] ++ push_clause c) = [100] :: map show zs ++ [[48]]).
  { pose proof (tokens_clause c) as T. rewrite E in T. unfold split_whitespace in *. change ([100; 32] ++ push_clause c) with ([100] ++ 32 :: push_clause c). rewrite split_word; [|by constructor|done|done]. by rewrite T. }
  rewrite T, U, M. done.
Qed.
(** ** LRAT lines *)
Definition add_text (id : N) (c : clause) (hints : list N) : text := dec id ++ [32] ++ push_clause c ++ [32] ++ spaced (map Z.of_N hints) ++ [48].
Definition del_text (id did : N) : text := dec id ++ [32; 100; 32] ++ dec did ++ [32; 48].
Lemma dec_head x : exists y r, dec x = y :: r /\ is_digit y.
Proof. destruct (dec_spec x) as (N & F & _). destruct (dec x) as [|y r]; [done|]. inversion F; subst. eauto. Qed.
Lemma dec_nl x : no_nl (dec x).
Proof. apply no_ws_nl, dec_no_ws. Qed.
Lemma dec_usize x : x < 2 ^ 64 -> parse_usize (dec x) = Some x.
Proof. intros L. apply natural_spec. exists (dec x). split; [apply dec_spec|]. auto. Qed.
Lemma add_tokens id c hints : split_whitespace (add_text id c hints) = dec id :: map show (map dimacs c) ++ [48] :: map show (map Z.of_N hints) ++ [[48]].
Proof.
  unfold split_whitespace, add_text, push_clause. destruct (dec_head id) as (y & r & E & _). rewrite <- !app_assoc. cbn [app]. rewrite split_word; [|apply dec_no_ws|done|by rewrite E]. cbn [app]. f_equal.
  rewrite split_spaced. f_equal. rewrite split_zero. by rewrite split_spaced.
Qed.
Lemma del_tokens id did : split_whitespace (del_text id did) = [dec id; [100]; dec did; [48]].
Proof.
  unfold split_whitespace, del_text. destruct (dec_head id) as (y & r & E & _). destruct (dec_head did) as (y' & r' & E' & _). cbn [app]. rewrite split_word; [|apply dec_no_ws|done|by rewrite E]. cbn [app]. f_equal.
  change (100 :: 32 :: dec did ++ [32; 48]) with ([100] ++ 32 :: dec did ++ [32; 48]). rewrite split_word; [|by constructor|done|done]. cbn [app]. f_equal.
  rewrite split_word; [done|apply dec_no_ws|done|by rewrite E'].
Qed.
Lemma check_other n m id_tok id x r toks ls line l : trim l = line -> skipped line = false -> split_whitespace line = id_tok :: (x :: r) :: toks -> parse_usize id_tok = Some id -> x <> 100 ->
  check_lines n m (l :: ls) =
  match until_zero ((x :: r) :: toks) with
  | None => Some false
  | Some (ns, _, rest) =>
      match until_zero rest with
      | None => Some false
      | Some (hs, _, _) =>
          let c := map lit_of_int ns in
          match verify_rup_step n m c (map (fun h => Z.to_N (h mod 2 ^ 64)%Z) hs) with
          | None => None
          | Some false => Some false
          | Some true => match c with [] => Some true | _ => check_lines n (<[id := c]> m) ls end
          end
      end
  end.
Proof.
  intros T Sk E P N. cbn [check_lines]. rewrite T, Sk, E, P. destruct x as [|p]; [done|]. repeat (destruct p as [p|p|]; try reflexivity). done.
Qed.
Lemma check_add n m id c hints ls : small c -> id < 2 ^ 64 -> Forall (fun h => 0 < h < 2 ^ 63) hints -> verify_rup_step n m c hints = Some true ->
  check_lines n m (add_text id c hints :: ls) = match c with [] => Some true | _ => check_lines n (<[id := c]> m) ls end.
Proof.
  intros S L Fh V. destruct (dec_head id) as (y & r & E & D). 
  assert (trim (add_text id c hints) = add_text id c hints /\ skipped (add_text id c hints) = false) as [T Sk].
  { unfold add_text. rewrite E. eapply lead_line; [right; left; exact D|]. rewrite !app_comm_cons, !app_assoc. reflexivity. }
  destruct (until_clause c (map show (map Z.of_N hints) ++ [[48]]) S) as (zs & Ez & U & M). pose proof (add_tokens id c hints) as Tk. rewrite Ez in Tk.
  destruct (not_d_token zs (map show (map Z.of_N hints) ++ [[48]])) as (tok & toks & Et & x & r' & -> & N). rewrite Et in Tk, U.
  rewrite (check_other n m _ id x r' toks ls _ _ T Sk Tk (dec_usize id L) N), U.
  assert (Fz : Forall (fun z => i64 z /\ z <> 0%Z) (map Z.of_N hints)).
  { apply Forall_forall. intros z Hz. apply elem_of_list_In, in_map_iff in Hz as (h & <- & Hh). apply elem_of_list_In in Hh. rewrite Forall_forall in Fh. specialize (Fh h Hh). cbv beta in Fh. unfold i64. lia. }
  change (map show (map Z.of_N hints) ++ [[48]]) with (map show (map Z.of_N hints) ++ [48] :: []). rewrite (until_ok _ [] Fz). cbv zeta. rewrite M.
  assert (map (fun h => Z.to_N (h mod 2 ^ 64)) (map Z.of_N hints) = hints) as ->.
  { clear - Fh. induction Fh as [|h hints Hh Fh IH]; [done|]. cbn [map]. rewrite IH. f_equal. rewrite Z.mod_small; [apply N2Z.id|]. lia. }
  rewrite V. done.
Qed.
Lemma check_delete n m id did ls : id < 2 ^ 64 -> 0 < did < 2 ^ 64 -> check_lines n m (del_text id did :: ls) = check_lines n (base.delete did m) ls.
Proof.
  intros L Ld. destruct (dec_head id) as (y & r & E & D).
  assert (trim (del_text id did) = del_text id did /\ skipped (del_text id did) = false) as [T Sk].
  { unfold del_text. rewrite E. eapply lead_line; [right; left; exact D|]. change [32; 48] with ([32] ++ [48]). rewrite !app_comm_cons, !app_assoc. reflexivity. }
  cbn [check_lines]. rewrite T, Sk, del_tokens, (dec_usize id L). unfold delete_ids. cbn [fold_left]. rewrite (dec_usize did) by lia. rewrite (proj2 (N.eqb_neq did 0)) by lia. done.
Qed.
Lemma check_blank n m : check_lines n m [[]] = Some false.
Proof. done. Qed.
