(* C108: Berlekamp-Massey finds the shortest register *)
From Coq Require Import NArith ZArith List Lia Bool Arith Ring.
Import ListNotations.
From Verif Require Import BmModel BmProofs Gf256Proofs.

(* the laws of a field for the operations of FieldElem *)
Definition field_laws {F} (zero one : F) (add sub mul : F -> F -> F) (inv : F -> F) (eqb : F -> F -> bool) : Prop :=
  (exists opp, ring_theory zero one add mul sub opp (@eq F))
  /\ (forall x, x <> zero -> mul x (inv x) = one)
  /\ (forall x y, eqb x y = true <-> x = y)
  /\ one <> zero.

(* both instances are fields; in the byte field, 2 * b is the doubling with the
   reduction by x^8 + x^4 + x^3 + x + 1, which fixes the multiplication *)
Theorem C108_gf2_field : field_laws false true xorb xorb andb (fun x => x) Bool.eqb.
Proof.
  split; [exists (fun x => x); constructor; intros; repeat match goal with x : bool |- _ => destruct x end; reflexivity|].
  split; [intros [] H; [reflexivity|contradiction]|]. split; [intros [] []; cbn; split; congruence|discriminate].
Qed.
Theorem C108_gf256_field : field_laws gzero gone gadd gadd gmul ginv geqb
  /\ (forall a b, val (gadd a b) = N.lxor (val a) (val b))
  /\ (forall a b, val a = 2%N -> val (gmul a b) =
        if N.ltb (val b) 128 then (2 * val b)%N else N.lxor (2 * val b) 283)
  /\ (forall a b, val (gmul a b) = gf256_mul (val a) (val b)) /\ (forall a, val (ginv a) = gf256_inv (val a)).
Proof.
  split; [split; [exists (fun x => x); exact gring|]; split; [exact ginv_r|]; split; [exact geqb_eq|]; intros E; apply (f_equal val) in E; discriminate|].
  split; [reflexivity|]. split; [|split; reflexivity]. intros a b E. cbn [gmul val byte proj1_sig]. fold (val a) (val b). rewrite E, mul_2 by apply val_lt.
  pose proof (val_lt b) as Hb. generalize dependent (val b). clear. intros b Hb.
  assert (E : forallb (fun k => N.eqb (gf256_xtime (N.of_nat k)) (if N.ltb (N.of_nat k) 128 then (2 * N.of_nat k)%N else N.lxor (2 * N.of_nat k) 283)) (seq 0 256) = true)
    by (vm_compute; reflexivity).
  rewrite forallb_forall in E. specialize (E (N.to_nat b)). rewrite N2Nat.id in E. apply N.eqb_eq, E. apply in_seq. lia.
Qed.

Section any_field.
Context {F : Type} (zero one : F) (add sub mul : F -> F -> F) (inv : F -> F) (eqb : F -> F -> bool).
Notation bm := (berlekamp_massey_field zero one add sub mul inv eqb).
Notation lfsr := (lfsr_generate_field zero add sub mul).

(* Over every field the algorithm never panics, the register it returns replays the
   sequence from its first elements, and no shorter register does *)
Theorem C108_shortest : field_laws zero one add sub mul inv eqb -> forall s,
  exists L taps, bm s = Some (L, taps) /\ length taps = L /\ L <= length s
  /\ lfsr taps (firstn L s) (length s) = Some s
  /\ forall taps', lfsr taps' (firstn (length taps') s) (length s) = Some s -> L <= length taps'.
Proof.
  intros ((opp & RT) & IV & EQ & NZ) s.
  destruct (bm_spec zero one add sub mul opp inv eqb RT IV EQ s) as (L & taps & E & LT & LL & G & M).
  exists L, taps. split; [exact E|]. split; [exact LT|]. split; [exact LL|]. split.
  - rewrite <- LT. apply (lfsr_gen zero one add sub mul opp RT); rewrite LT; assumption.
  - intros taps' H. destruct (Nat.le_gt_cases (length taps') (length s)) as [H1|H1]; [|lia].
    apply (M (poly zero one taps')). apply (lfsr_back zero one add sub mul opp RT); assumption.
Qed.

(* with at least twice as many elements as the register is long, the taps are the
   only ones *)
Theorem C108_unique : field_laws zero one add sub mul inv eqb -> forall s L taps taps',
  bm s = Some (L, taps) -> 2 * L <= length s -> length taps' = L ->
  lfsr taps' (firstn L s) (length s) = Some s -> taps' = taps.
Proof.
  intros ((opp & RT) & IV & EQ & NZ) s L taps taps' E H2 L' G'.
  destruct (bm_spec zero one add sub mul opp inv eqb RT IV EQ s) as (L0 & taps0 & E0 & LT & LL & G & M).
  assert (L0 = L /\ taps0 = taps) as [-> ->] by (split; congruence).
  rewrite <- L' in G'. apply (lfsr_back zero one add sub mul opp RT) in G'; [|lia]. rewrite L' in G'.
  apply nth_ext with zero zero; [congruence|]. intros i Hi.
  apply (unique zero one add sub mul opp inv eqb RT IV EQ _ (length s) L (poly zero one taps') (poly zero one taps) G' G M H2 (S i)). lia.
Qed.

Lemma lfsr_some RT_opp (RT : ring_theory zero one add mul sub RT_opp (@eq F)) taps seed M r :
  length seed = length taps -> length taps <= M -> lfsr taps seed M = Some r ->
  length r = M /\ firstn (length taps) r = seed /\ gen zero one add mul (fun i => nth i r zero) (poly zero one taps) (length taps) M.
Proof.
  intros LS HM E. unfold lfsr_generate_field in E. rewrite LS in E.
  replace (Nat.min (Nat.min (length taps) (length taps)) M) with (length taps) in E by lia.
  rewrite firstn_all2 in E by lia.
  destruct (replay zero add sub mul taps (seq (length taps) (M - length taps)) seed) as [out|] eqn:Er; [|discriminate].
  apply (replay_spec zero one add sub mul RT_opp RT) in Er as (Lr & Fr & D); [|exact LS|lia].
  rewrite firstn_all2 in E by lia. injection E as <-. split; [lia|]. split; [exact Fr|]. split; [reflexivity|].
  intros i Hi. apply D. lia.
Qed.

(* The attack: from twice as many outputs as the unknown register is long, the
   register found predicts every later output *)
Theorem C108_predicts : field_laws zero one add sub mul inv eqb -> forall taps0 seed s M future L taps,
  length seed = length taps0 -> 2 * length taps0 <= length s <= M ->
  lfsr taps0 seed M = Some future -> firstn (length s) future = s ->
  bm s = Some (L, taps) -> L <= length taps0 /\ lfsr taps (firstn L s) M = Some future.
Proof.
  intros ((opp & RT) & IV & EQ & NZ) taps0 seed s M fu L taps LS HM EF ES E.
  destruct (bm_spec zero one add sub mul opp inv eqb RT IV EQ s) as (L0 & tt & E0 & LT & LL & G & Mn).
  assert (L0 = L /\ tt = taps) as [-> ->] by (split; congruence). clear E0.
  apply (lfsr_some opp RT) in EF as (LF & FF & GF); [|exact LS|lia].
  assert (NS : forall i, i < length s -> nth i s zero = nth i fu zero).
  { intros i Hi. rewrite <- ES at 1. rewrite <- (firstn_skipn (length s) fu) at 2. rewrite app_nth1; [reflexivity|]. rewrite firstn_length. lia. }
  assert (DS : forall C K i, i < length s -> dis zero add mul (fun i => nth i s zero) C K i = dis zero add mul (fun i => nth i fu zero) C K i).
  { intros C K i Hi. unfold dis. apply BoolFnProofs.sum_ext. intros j _. rewrite NS by lia. reflexivity. }
  assert (HL : L <= length taps0).
  { apply (Mn (poly zero one taps0)). split; [reflexivity|]. intros i Hi. rewrite DS by lia. apply GF. lia. }
  split; [exact HL|].
  assert (G1 : gen zero one add mul (fun i => nth i fu zero) (poly zero one taps) L (length s)).
  { split; [reflexivity|]. intros i Hi. rewrite <- DS by lia. apply G. exact Hi. }
  destruct (first_failure zero one add mul eqb EQ _ _ L (length s) (M - length s) G1) as [G2|(N & HN & GN & DN & LN)].
  - replace (length s + (M - length s)) with M in G2 by lia.
    replace (firstn L s) with (firstn (length taps) fu).
    2:{ rewrite <- ES. rewrite firstn_firstn. f_equal. lia. }
    rewrite <- LF. apply (lfsr_gen zero one add sub mul opp RT); rewrite LT; [lia|rewrite LF; exact G2].
  - exfalso. assert (gen zero one add mul (fun i => nth i fu zero) (poly zero one taps0) (length taps0) (S N)).
    { split; [reflexivity|]. intros i Hi. apply GF. lia. }
    pose proof (massey zero one add sub mul opp RT _ _ L _ _ N GN LN DN H). lia.
Qed.

(* replaying: with enough seed it gives the number of elements asked for, starting
   with the seed; with too little it panics *)
Theorem C108_replay : field_laws zero one add sub mul inv eqb -> forall taps seed total,
  (length taps <= length seed -> exists out, lfsr taps seed total = Some out /\ length out = total
     /\ firstn (length taps) out = firstn total (firstn (length taps) seed))
  /\ (length seed < length taps < total -> lfsr taps seed total = None).
Proof.
  intros ((opp & RT) & _) taps seed total. split.
  - intros H. unfold lfsr_generate_field. replace (Nat.min (length taps) (length seed)) with (length taps) by lia.
    destruct (Nat.le_gt_cases total (length taps)) as [H1|H1].
    + replace (total - length taps) with 0 by lia. cbn [seq replay]. eexists. split; [reflexivity|].
      rewrite Nat.min_r by lia. rewrite !firstn_firstn, Nat.min_id, firstn_length. split; [lia|]. f_equal. lia.
    + rewrite Nat.min_l by lia.
      assert (R : forall k i out, length out = i -> length taps <= i -> exists r, replay zero add sub mul taps (seq i k) out = Some r).
      { induction k as [|k IH]; intros i out Lo Hi; cbn [seq replay]; [eauto|].
        rewrite (tap_sum_spec zero one add sub mul opp RT out) by (try lia; intros; apply nth_error_nth'; lia).
        apply IH; [rewrite app_length; cbn [length]; lia|lia]. }
      destruct (R (total - length taps) (length taps) (firstn (length taps) seed)) as (r & Er); [rewrite firstn_length; lia|lia|].
      rewrite Er. exists (firstn total r). split; [reflexivity|].
      apply (replay_spec zero one add sub mul opp RT) in Er as (Lr & Fr & _); [|rewrite firstn_length; lia|lia].
      rewrite firstn_length, !firstn_firstn. split; [lia|]. rewrite !Nat.min_l, Nat.min_r by lia. exact Fr.
  - intros H. unfold lfsr_generate_field. replace (total - length taps) with (S (total - length taps - 1)) by lia.
    cbn [seq replay]. destruct taps as [|t taps]; [cbn [length] in H; lia|]. cbn [tap_sum].
    replace (nth_error _ _) with (@None F); [reflexivity|]. symmetry. apply nth_error_None. rewrite firstn_length.
    cbn [length] in *. lia.
Qed.
End any_field.

(* bits of bytes *)
Theorem C108_bytes : forall v, bits_to_bytes (bytes_to_bits v) = map (fun x => x mod 256)%Z v
  /\ length (bytes_to_bits v) = 8 * length v.
Proof.
  assert (LB : forall v, length (bytes_to_bits v) = 8 * length v).
  { induction v as [|x v IH]; [reflexivity|]. unfold bytes_to_bits in *. cbn [flat_map]. rewrite app_length, IH. cbn [map seq length]. lia. }
  assert (PK : forall x, pack (map (fun j => Z.testbit (x mod 256) (Z.of_nat j)) (seq 0 8)) = (x mod 256)%Z).
  { intros x. assert (E : forallb (fun k => Z.eqb (pack (map (fun j => Z.testbit (Z.of_nat k) (Z.of_nat j)) (seq 0 8))) (Z.of_nat k)) (seq 0 256) = true)
      by (vm_compute; reflexivity).
    rewrite forallb_forall in E. pose proof (Z.mod_pos_bound x 256 ltac:(lia)) as B.
    specialize (E (Z.to_nat (x mod 256))). rewrite Z2Nat.id in E by lia. apply Z.eqb_eq, E. apply in_seq. lia. }
  assert (R : forall v fuel, length v <= fuel -> bits_to_bytes_fuel fuel (bytes_to_bits v) = map (fun x => x mod 256)%Z v).
  { induction v as [|x v IH]; intros [|fuel] H; cbn [length] in H; try lia; try reflexivity.
    change (bytes_to_bits (x :: v)) with (map (fun j => Z.testbit (x mod 256) (Z.of_nat j)) (seq 0 8) ++ bytes_to_bits v).
    specialize (PK x). set (h := map (fun j => Z.testbit (x mod 256) (Z.of_nat j)) (seq 0 8)) in *.
    assert (Lh : length h = 8) by reflexivity.
    destruct h as [|b0 h']; [discriminate|]. cbn [app bits_to_bytes_fuel map]. change (b0 :: h' ++ bytes_to_bits v) with ((b0 :: h') ++ bytes_to_bits v).
    rewrite firstn_app, skipn_app, Lh. replace (8 - 8) with 0 by reflexivity. rewrite firstn_O, app_nil_r, firstn_all2, skipn_all2 by (rewrite Lh; reflexivity).
    rewrite PK. cbn [app skipn]. rewrite IH by lia. reflexivity. }
  intros v. split; [apply R; rewrite LB; lia|apply LB].
Qed.

(* A byte column is reported as a keystream exactly when some register shorter than
   the whole sequence, but not empty, is the shortest; and what is reported
   regenerates it *)
Theorem C108_detect : forall v, exists L taps, berlekamp_massey_gf2 (bytes_to_bits v) = Some (L, taps)
  /\ detect_lfsr_bytes v = Some (if (1 <=? L) && (L <? 8 * length v) then Some (L, taps, firstn L (bytes_to_bits v)) else None)
  /\ lfsr_generate taps (firstn L (bytes_to_bits v)) (8 * length v) = Some (bytes_to_bits v).
Proof.
  intros v. destruct (C108_shortest _ _ _ _ _ _ _ C108_gf2_field (bytes_to_bits v)) as (L & taps & E & LT & LL & G & _).
  exists L, taps. split; [exact E|]. destruct (C108_bytes v) as [_ LB]. rewrite <- LB. split; [|exact G].
  unfold detect_lfsr_bytes, berlekamp_massey_gf2, lfsr_generate. rewrite E.
  destruct (Nat.eqb_spec L 0) as [->|N]; [reflexivity|]. cbn [orb].
  destruct (Nat.leb_spec 1 L); [|lia]. cbn [andb].
  destruct (Nat.leb_spec (length (bytes_to_bits v)) L), (Nat.ltb_spec L (length (bytes_to_bits v))); try lia; [reflexivity|].
  rewrite G. replace (bits_eqb (bytes_to_bits v) (bytes_to_bits v)) with true; [reflexivity|].
  symmetry. generalize (bytes_to_bits v) as b. induction b as [|[] b IH]; cbn; auto.
Qed.

Example C108_ex :
  berlekamp_massey_gf2 [false; false; true; true; false; true; true; true; false] = Some (5, [false; false; true; false; true])
  /\ lfsr_generate [true; false; false; true] [true; false; false; false] 16
     = Some [true; false; false; false; true; true; true; true; false; true; false; true; true; false; false; true]
  /\ berlekamp_massey_gf2 [true; false; false; false; true; true; true; true] = Some (4, [true; false; false; true])
  /\ berlekamp_massey_gf2 [false; false; false] = Some (0, []) /\ berlekamp_massey_gf2 [false; false; true] = Some (3, [false; false; true])
  /\ lfsr_generate [true; true] [true] 3 = None
  /\ option_map (fun r => (fst r, map val (snd r)))
       (berlekamp_massey_field gzero gone gadd gadd gmul ginv geqb
          [byte 1 eq_refl; byte 3 eq_refl; byte 5 eq_refl; byte 15 eq_refl; byte 17 eq_refl; byte 51 eq_refl])
     = Some (1, [3%N])
  /\ gf256_mul 87 131 = 193%N
  /\ option_map (option_map (fun r => fst (fst r))) (detect_lfsr_bytes [205; 205; 205]%Z) = Some (Some 8).
Proof. repeat split; vm_compute; try reflexivity. Qed.
