(* The ML-KEM number-theoretic transform of
   /repo/crates/logicaffeine_system/src/ntt.rs: the field arithmetic, the
   scalar transforms, the base multiply, the AVX2 transforms and the public
   entry points around them.

   Machine integers are Z with the wrap-around of each type written out: [i16]
   values are kept in [-2^15, 2^15) by [w16], [u16] values in [0, 2^16) by
   [u16].  An array of 256 coefficients is a list of 256 integers; reading
   outside an array, which the code never does, reads 0 here. *)
From Coq Require Import ZArith List Lia Bool.
Import ListNotations.
Open Scope Z_scope.

(* ntt.rs:11-12 *)
Definition Q : Z := 3329.
Definition QINV : Z := -3327.

(* ntt.rs:15-24: ZETAS *)
Definition zetas : list Z :=
  [-1044; -758; -359; -1517; 1493; 1422; 287; 202; -171; 622; 1577; 182; 962; -1202; -1474; 1468;
   573; -1325; 264; 383; -829; 1458; -1602; -130; -681; 1017; 732; 608; -1542; 411; -205; -1571;
   1223; 652; -552; 1015; -1293; 1491; -282; -1544; 516; -8; -320; -666; -1618; -1162; 126; 1469;
   -853; -90; -271; 830; 107; -1421; -247; -951; -398; 961; -1508; -725; 448; -1065; 677; -1275;
   -1103; 430; 555; 843; -1251; 871; 1550; 105; 422; 587; 177; -235; -291; -460; 1574; 1653; -246;
   778; 1159; -147; -777; 1483; -602; 1119; -1590; 644; -872; 349; 418; 329; -156; -75; 817; 1097;
   603; 610; 1322; -1285; -1465; 384; -1215; -136; 1218; -1335; -874; 220; -1187; -1659; -1185;
   -1530; -1278; 794; -1510; -854; -870; 478; -108; -308; 996; 991; 958; -1460; 1522; 1628].

(* the value of an integer cast to i16 or to u16, and of a wrapping operation *)
Definition w16 (x : Z) : Z := (x + 32768) mod 65536 - 32768.
Definition u16 (x : Z) : Z := x mod 65536.

(* ntt.rs:27-30.  The i32 operations are exact integers here: the argument is a
   product of two i16 values or of an i16 value and 1353, so nothing leaves i32. *)
Definition montgomery_reduce (a : Z) : Z :=
  let t := w16 (w16 a * QINV) in
  w16 (Z.shiftr (a - t * Q) 16).

(* ntt.rs:36-38 *)
Definition cadd_q (x : Z) : Z := u16 (x + Z.land Q (Z.shiftr x 15)).

(* ntt.rs:40-42 *)
Definition fqmul (a b : Z) : Z := montgomery_reduce (a * b).

(* ntt.rs:674-678 *)
Definition barrett_v : Z := (2 ^ 26 + Q / 2) / Q.
Definition barrett_reduce (a : Z) : Z :=
  let t := w16 (Z.shiftr (barrett_v * a + 2 ^ 25) 26) in
  w16 (a - w16 (t * Q)).

(* reading and writing one array element *)
Definition get (r : list Z) (i : nat) : Z := nth i r 0.
Fixpoint set (r : list Z) (i : nat) (x : Z) : list Z :=
  match r, i with
  | [], _ => []
  | _ :: r', O => x :: r'
  | y :: r', S i' => y :: set r' i' x
  end.

Definition zeta (k : nat) : Z := nth k zetas 0.

(* ntt.rs:53-57: one forward butterfly *)
Definition butterfly (z : Z) (len : nat) (r : list Z) (j : nat) : list Z :=
  let t := fqmul z (get r (j + len)) in
  let r1 := set r (j + len) (w16 (get r j - t)) in
  set r1 j (w16 (get r1 j + t)).

(* ntt.rs:49-60: the loop over [start] at one level.  The fuel is an iteration
   bound of 256, which the loop never reaches. *)
Fixpoint ntt_blocks (fuel len start k : nat) (r : list Z) : nat * list Z :=
  match fuel with
  | O => (k, r)
  | S f =>
    if (start <? 256)%nat then
      ntt_blocks f len (start + 2 * len) (k + 1)
        (fold_left (butterfly (zeta k) len) (seq start len) r)
    else (k, r)
  end.

(* ntt.rs:48-62: the loop over [len] *)
Fixpoint ntt_levels (fuel len k : nat) (r : list Z) : list Z :=
  match fuel with
  | O => r
  | S f =>
    if (2 <=? len)%nat then
      let '(k', r') := ntt_blocks 256 len 0 k r in
      ntt_levels f (len / 2) k' r'
    else r
  end.

(* ntt.rs:45-63 *)
Definition ntt_scalar (r : list Z) : list Z := ntt_levels 256 128 1 r.

(* ntt.rs:691-696: one inverse butterfly *)
Definition gs_butterfly (z : Z) (len : nat) (r : list Z) (j : nat) : list Z :=
  let t := get r j in
  let r1 := set r j (barrett_reduce (w16 (t + get r (j + len)))) in
  let r2 := set r1 (j + len) (w16 (get r1 (j + len) - t)) in
  set r2 (j + len) (fqmul z (get r2 (j + len))).

(* ntt.rs:687-699.  [k] counts down; after the last block it wraps below zero
   and is not read again, so truncated subtraction is the same. *)
Fixpoint inv_blocks (fuel len start k : nat) (r : list Z) : nat * list Z :=
  match fuel with
  | O => (k, r)
  | S f =>
    if (start <? 256)%nat then
      inv_blocks f len (start + 2 * len) (k - 1)
        (fold_left (gs_butterfly (zeta k) len) (seq start len) r)
    else (k, r)
  end.

(* ntt.rs:686-701 *)
Fixpoint inv_levels (fuel len k : nat) (r : list Z) : list Z :=
  match fuel with
  | O => r
  | S f =>
    if (len <=? 128)%nat then
      let '(k', r') := inv_blocks 256 len 0 k r in
      inv_levels f (2 * len) k' r'
    else r
  end.

(* ntt.rs:682-705 *)
Definition invntt_scalar (r : list Z) : list Z :=
  map (fun x => fqmul x 1441) (inv_levels 256 2 127 r).

(* ntt.rs:729-733 *)
Definition bmul (a0 a1 b0 b1 z : Z) : Z * Z :=
  (w16 (fqmul (fqmul a1 b1) z + fqmul a0 b0),
   w16 (fqmul a0 b1 + fqmul a1 b0)).

(* ntt.rs:739-748: the body of the loop *)
Definition basemul_step (a b : list Z) (r : list Z) (i : nat) : list Z :=
  let z := zeta (64 + i) in
  let c := bmul (get a (4 * i)) (get a (4 * i + 1)) (get b (4 * i)) (get b (4 * i + 1)) z in
  let r1 := set (set r (4 * i) (fst c)) (4 * i + 1) (snd c) in
  let d := bmul (get a (4 * i + 2)) (get a (4 * i + 3))
                (get b (4 * i + 2)) (get b (4 * i + 3)) (w16 (- z)) in
  set (set r1 (4 * i + 2) (fst d)) (4 * i + 3) (snd d).

(* ntt.rs:737-750 *)
Definition basemul_scalar (a b : list Z) : list Z :=
  fold_left (basemul_step a b) (seq 0 64) (repeat 0 256).

(* ---- AVX2: a register of sixteen i16 lanes is a list of sixteen values ---- *)

Definition vec (f : nat -> Z) : list Z := map f (seq 0 16).
Definition lane (v : list Z) (i : nat) : Z := nth i v 0.

(* the intrinsics, lane by lane *)
Definition set1 (x : Z) : list Z := vec (fun _ => x).
Definition mullo (a b : list Z) : list Z := vec (fun i => w16 (lane a i * lane b i)).
Definition mulhi (a b : list Z) : list Z := vec (fun i => Z.shiftr (lane a i * lane b i) 16).
Definition vadd (a b : list Z) : list Z := vec (fun i => w16 (lane a i + lane b i)).
Definition vsub (a b : list Z) : list Z := vec (fun i => w16 (lane a i - lane b i)).
Definition srai (a : list Z) (n : Z) : list Z := vec (fun i => Z.shiftr (lane a i) n).
(* _mm256_permute2x128_si256(v, v, 0x01) exchanges the two 128-bit halves *)
Definition swap128 (v : list Z) : list Z := vec (fun i => lane v (if (i <? 8)%nat then i + 8 else i - 8)).
(* _mm256_shuffle_epi32(v, 0x4E) exchanges neighbouring 64-bit quarters *)
Definition swap64 (v : list Z) : list Z :=
  vec (fun i => lane v (if (i mod 8 <? 4)%nat then i + 4 else i - 4)).
(* _mm256_shuffle_epi32(v, 0xB1) exchanges neighbouring 32-bit words *)
Definition swap32 (v : list Z) : list Z :=
  vec (fun i => lane v (if (i mod 4 <? 2)%nat then i + 2 else i - 2)).
(* _mm256_blendv_epi8(a, b, mask), the mask being all ones or zeros per lane *)
Definition blend (a b : list Z) (mask : nat -> bool) : list Z :=
  vec (fun i => if mask i then lane b i else lane a i).
(* the masks lo_mask, mask4 and mask2, ntt.rs:97, 121, 145 *)
Definition lo_mask (i : nat) : bool := (i <? 8)%nat.
Definition mask4 (i : nat) : bool := (i mod 8 <? 4)%nat.
Definition mask2 (i : nat) : bool := (i mod 4 <? 2)%nat.
(* unaligned load and store of sixteen lanes *)
Definition load (r : list Z) (j : nat) : list Z := vec (fun i => get r (j + i)).
Definition store (r : list Z) (j : nat) (v : list Z) : list Z :=
  fold_left (fun r i => set r (j + i) (lane v i)) (seq 0 16) r.

(* ntt.rs:172-186; the forward transform has the same five operations in line,
   ntt.rs:82-86, 104-108, 130-134, 156-160 *)
Definition mont_mul_x16 (a b : list Z) : list Z :=
  let rlo := mullo b a in
  let rhi := mulhi b a in
  let tt := mullo rlo (set1 QINV) in
  let tt := mulhi tt (set1 Q) in
  vsub rhi tt.

(* ntt.rs:195-202 *)
Definition barrett_x16 (a : list Z) : list Z :=
  let hi := mulhi a (set1 (w16 barrett_v)) in
  let t := srai (vadd hi (set1 512)) 10 in
  vsub a (mullo t (set1 Q)).

(* ntt.rs:78-91: one sixteen-wide forward butterfly *)
Definition butterfly_x16 (z : Z) (len : nat) (r : list Z) (j : nat) : list Z :=
  let aj := load r j in
  let ajl := load r (j + len) in
  let t := mont_mul_x16 ajl (set1 z) in
  let r1 := store r j (vadd aj t) in
  store r1 (j + len) (vsub aj t).

(* ntt.rs:73-92; [j] goes up in steps of 16 *)
Fixpoint avx_blocks (fuel len start k : nat) (r : list Z) : nat * list Z :=
  match fuel with
  | O => (k, r)
  | S f =>
    if (start <? 256)%nat then
      avx_blocks f len (start + 2 * len) (k + 1)
        (fold_left (butterfly_x16 (zeta k) len)
           (map (fun i => start + 16 * i)%nat (seq 0 (len / 16))) r)
    else (k, r)
  end.

(* ntt.rs:71-94 *)
Fixpoint avx_levels (fuel len k : nat) (r : list Z) : nat * list Z :=
  match fuel with
  | O => (k, r)
  | S f =>
    if (16 <=? len)%nat then
      let '(k', r') := avx_blocks 256 len 0 k r in
      avx_levels f (len / 2) k' r'
    else (k, r)
  end.

(* ntt.rs:96-116, 120-140, 144-166: one vector of the last three levels *)
Definition short_x16 (zv : list Z) (sw : list Z -> list Z) (mask : nat -> bool)
    (r : list Z) (start : nat) : list Z :=
  let v := load r start in
  let t := mont_mul_x16 (sw v) zv in
  let add := vadd v t in
  let sub := vsub v t in
  store r start (blend (sw sub) add mask).

(* the per-block zetas of one vector: [n] of them from [k] upwards *)
Definition zvec (k n : nat) : list Z := vec (fun i => zeta (k + i / (16 / n))).

Fixpoint avx_short (fuel n start k : nat) (sw : list Z -> list Z) (mask : nat -> bool)
    (r : list Z) : nat * list Z :=
  match fuel with
  | O => (k, r)
  | S f =>
    if (start <? 256)%nat then
      avx_short f n (start + 16) (k + n) sw mask
        (short_x16 (zvec k n) sw mask r start)
    else (k, r)
  end.

(* ntt.rs:67-167 *)
Definition ntt_avx2 (r : list Z) : list Z :=
  let '(k, r) := avx_levels 256 128 1 r in
  let '(k, r) := avx_short 256 1 0 k swap128 lo_mask r in
  let '(k, r) := avx_short 256 2 0 k swap64 mask4 r in
  let '(k, r) := avx_short 256 4 0 k swap32 mask2 r in
  r.

(* ntt.rs:216-235, 237-254, 256-270: one vector of the first three inverse levels *)
Definition gs_short_x16 (zv : list Z) (sw : list Z -> list Z) (mask : nat -> bool)
    (r : list Z) (start : nat) : list Z :=
  let v := load r start in
  let vsh := sw v in
  let lopart := barrett_x16 (vadd v vsh) in
  let hipart := mont_mul_x16 zv (vsub v vsh) in
  store r start (blend hipart lopart mask).

(* the per-block zetas of one vector: [n] of them from [k] downwards *)
Definition zvec_down (k n : nat) : list Z := vec (fun i => zeta (k - i / (16 / n))).

Fixpoint inv_short (fuel n start k : nat) (sw : list Z -> list Z) (mask : nat -> bool)
    (r : list Z) : nat * list Z :=
  match fuel with
  | O => (k, r)
  | S f =>
    if (start <? 256)%nat then
      inv_short f n (start + 16) (k - n) sw mask
        (gs_short_x16 (zvec_down k n) sw mask r start)
    else (k, r)
  end.

(* ntt.rs:279-291 *)
Definition gs_x16 (z : Z) (len : nat) (r : list Z) (j : nat) : list Z :=
  let lo := load r j in
  let hi := load r (j + len) in
  let r1 := store r j (barrett_x16 (vadd lo hi)) in
  store r1 (j + len) (mont_mul_x16 (set1 z) (vsub hi lo)).

(* ntt.rs:275-294 *)
Fixpoint inv_avx_blocks (fuel len start k : nat) (r : list Z) : nat * list Z :=
  match fuel with
  | O => (k, r)
  | S f =>
    if (start <? 256)%nat then
      inv_avx_blocks f len (start + 2 * len) (k - 1)
        (fold_left (gs_x16 (zeta k) len)
           (map (fun i => start + 16 * i)%nat (seq 0 (len / 16))) r)
    else (k, r)
  end.

(* ntt.rs:273-296 *)
Fixpoint inv_avx_levels (fuel len k : nat) (r : list Z) : list Z :=
  match fuel with
  | O => r
  | S f =>
    if (len <=? 128)%nat then
      let '(k', r') := inv_avx_blocks 256 len 0 k r in
      inv_avx_levels f (2 * len) k' r'
    else r
  end.

(* ntt.rs:299-303: the final scaling of one vector *)
Definition scale_x16 (r : list Z) (i : nat) : list Z :=
  store r i (mont_mul_x16 (set1 1441) (load r i)).

(* ntt.rs:210-304 *)
Definition invntt_avx2 (r : list Z) : list Z :=
  let '(k, r) := inv_short 256 4 0 127 swap32 mask2 r in
  let '(k, r) := inv_short 256 2 0 k swap64 mask4 r in
  let '(k, r) := inv_short 256 1 0 k swap128 lo_mask r in
  let r := inv_avx_levels 256 16 k r in
  fold_left scale_x16 (map (fun i => 16 * i)%nat (seq 0 16)) r.

(* ---- the entry points; [avx2] says whether the processor has AVX2 ---- *)

(* ntt.rs:308-328 (mlkem_ntt_raw); None is the panic on a wrong length.  Also
   mlkem_ntt, ntt.rs:332-335, which wraps the same vector *)
Definition mlkem_ntt (avx2 : bool) (input : list Z) : option (list Z) :=
  if (length input =? 256)%nat then
    let r := map (fun x => w16 (x mod Q)) input in
    let r := if avx2 then ntt_avx2 r else ntt_scalar r in
    Some (map (fun x => x mod Q) r)
  else None.

(* ntt.rs:340-358 *)
Definition mlkem_ntt_w16 (avx2 : bool) (input : list Z) : option (list Z) :=
  if (length input =? 256)%nat then
    let r := map w16 input in
    let r := if avx2 then ntt_avx2 r else ntt_scalar r in
    Some (map (fun x => u16 (x mod Q)) r)
  else None.

(* ntt.rs:374-383 *)
Definition inv_ntt_inplace (avx2 : bool) (r : list Z) : list Z :=
  if avx2 then invntt_avx2 r else invntt_scalar r.

(* ntt.rs:706-716 (mlkem_inv_ntt_raw), in a release build: the debug_assert on
   the range of the input is not there *)
Definition mlkem_inv_ntt (avx2 : bool) (input : list Z) : option (list Z) :=
  if (length input =? 256)%nat then
    Some (map (fun x => x mod Q) (inv_ntt_inplace avx2 (map w16 input)))
  else None.

(* ntt.rs:361-369, for an input of 256 coefficients: the code takes the first
   256 of a longer one and fills a shorter one with zeros *)
Definition mlkem_inv_ntt_w16 (avx2 : bool) (input : list Z) : list Z :=
  let r := map w16 (firstn 256 (input ++ repeat 0 256)) in
  map (fun x => u16 (x mod Q)) (inv_ntt_inplace avx2 r).

(* ntt.rs:751-767 (mlkem_base_mul_raw), in a release build *)
Definition mlkem_base_mul (a b : list Z) : option (list Z) :=
  if ((length a =? 256)%nat && (length b =? 256)%nat)%bool then
    Some (map (fun x => x mod Q) (basemul_scalar (map w16 a) (map w16 b)))
  else None.

(* ntt.rs:384-401 *)
Definition mlkem_base_mul_w16 (a b : list Z) : list Z :=
  let to16 v := map w16 (firstn 256 (v ++ repeat 0 256)) in
  map (fun x => cadd_q (barrett_reduce x)) (basemul_scalar (to16 a) (to16 b)).

(* ntt.rs:782-793 (mlkem_to_mont_raw): `%` is the truncating remainder.  [x as
   i32] is exact below 2^31 and the product is exact for reduced input *)
Definition mlkem_to_mont (coeffs : list Z) : list Z :=
  map (fun x => (Z.rem (montgomery_reduce (x * 1353)) Q) mod Q) coeffs.

(* ntt.rs:402-407 *)
Definition mlkem_to_mont_w16 (coeffs : list Z) : list Z :=
  map (fun x => cadd_q (montgomery_reduce (w16 x * 1353))) coeffs.

(* ntt.rs:1108-1122; a sum of two reduced operands fits u16 *)
Definition mlkem_add_mod_q_w16 (a b : list Z) : list Z :=
  map (fun '(x, y) => let s := u16 (x + y) in if Q <=? s then s - Q else s) (combine a b).

(* ntt.rs:1124-1137 *)
Definition mlkem_sub_mod_q_w16 (a b : list Z) : list Z :=
  map (fun '(x, y) => let d := x - y in u16 (if d <? 0 then d + Q else d)) (combine a b).
