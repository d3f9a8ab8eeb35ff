(** Farkas certificates by Fourier–Motzkin elimination:
    [/repo/crates/logicaffeine_proof/src/linarith_solve.rs] lines 1-191.

    Simplified: [i64] arithmetic is exact integer arithmetic (the Rust code overflows outside 64 bits);
    a [BTreeMap] is a finite map, iterated in key order where the order is observable; the [f64]/lifetime
    payloads of proof terms do not exist here. *)
From Coq Require Import ZArith String Ascii List Bool.
From stdpp Require Import gmap strings list.
Local Open Scope Z_scope.

(** [LinExpr] (linarith_solve.rs:13-19). *)
Record linexpr := LE { coeffs : gmap string Z; const : Z }.
(** [LinExpr::constant] (22-24) and [LinExpr::var] (25-29). *)
Definition le_constant (c : Z) : linexpr := LE ∅ c.
Definition le_var (x : string) : linexpr := LE {[x := 1]} 0.
(** [prune] (30-33). *)
Definition prune (m : gmap string Z) : gmap string Z := omap (fun c => if c =? 0 then None else Some c) m.
(** One [*coeffs.entry(k).or_insert(0) += v] (37). *)
Definition add_entry (x y : option Z) : option Z :=
  match x, y with
  | None, None => None
  | Some a, None => Some a
  | None, Some b => Some (0 + b)
  | Some a, Some b => Some (a + b)
  end.
(** [add] (34-40), [neg] (41-46), [sub] (47-49), [scale] (54-60). *)
Definition le_add (a b : linexpr) : linexpr := LE (prune (merge add_entry (coeffs a) (coeffs b))) (const a + const b).
Definition le_neg (a : linexpr) : linexpr := LE (Z.opp <$> coeffs a) (- const a).
Definition le_sub (a b : linexpr) : linexpr := le_add a (le_neg b).
Definition le_scale (a : linexpr) (k : Z) : linexpr := LE (prune ((fun v => v * k) <$> coeffs a)) (const a * k).
(** [is_const] (51-53), [is_constant] (61-63), [coeff] (64-66). *)
Definition is_constant (a : linexpr) : bool := bool_decide (coeffs a = ∅).
Definition coeff (a : linexpr) (v : string) : Z := default 0 (coeffs a !! v).

(** [str::parse::<i64>]: an optional sign, at least one decimal digit, in range (used at 74). *)
Definition digit (a : ascii) : option Z :=
  let n := Z.of_N (N_of_ascii a) in if (48 <=? n) && (n <=? 57) then Some (n - 48) else None.
Fixpoint digits (acc : Z) (s : string) : option Z :=
  match s with
  | EmptyString => Some acc
  | String a s => match digit a with Some d => digits (10 * acc + d) s | None => None end
  end.
Definition unsigned (s : string) : option Z := match s with EmptyString => None | _ => digits 0 s end.
Definition in_i64 (z : Z) : bool := (- 2 ^ 63 <=? z) && (z <? 2 ^ 63).
Definition parse_i64 (s : string) : option Z :=
  let r := match s with
           | String "-"%char s' => Z.opp <$> unsigned s'
           | String "+"%char s' => unsigned s'
           | _ => unsigned s
           end in
  match r with Some z => if in_i64 z then Some z else None | None => None end.

(** [ProofTerm] (logicaffeine_proof/src/lib.rs), the five constructors matched at 72-97. *)
Inductive pterm :=
| Constant (s : string)
| Variable_ (s : string)
| BoundVarRef (s : string)
| Function_ (name : string) (args : list pterm)
| Group (args : list pterm).

(** [parse_lin] (71-97). *)
Fixpoint parse_lin (t : pterm) : option linexpr :=
  match t with
  | Constant s => Some (match parse_i64 s with Some n => le_constant n | None => le_var s end)
  | Variable_ s | BoundVarRef s => Some (le_var s)
  | Function_ name args =>
      match args with
      | [a; b] =>
          if String.eqb name "add" then
            match parse_lin a with Some la => match parse_lin b with Some lb => Some (le_add la lb) | None => None end | None => None end
          else if String.eqb name "sub" then
            match parse_lin a with Some la => match parse_lin b with Some lb => Some (le_sub la lb) | None => None end | None => None end
          else if String.eqb name "mul" then
            match parse_lin a with
            | Some la =>
                match parse_lin b with
                | Some lb => if is_constant la then Some (le_scale lb (const la))
                             else if is_constant lb then Some (le_scale la (const lb)) else None
                | None => None
                end
            | None => None
            end
          else None
      | _ => None
      end
  | Group _ => None
  end.

(** [Row] (101-105). *)
Record row := Row { re : linexpr; prov : gmap nat Z }.
(** [combine_prov] (107-117). *)
Definition prune_prov (m : gmap nat Z) : gmap nat Z := omap (fun c => if c =? 0 then None else Some c) m.
Definition combine_prov (a : gmap nat Z) (ka : Z) (b : gmap nat Z) (kb : Z) : gmap nat Z :=
  prune_prov (merge add_entry ((fun v => v * ka) <$> a) ((fun v => v * kb) <$> b)).
(** The closure [contradiction] (130-134). *)
Definition is_contradiction (r : row) : bool := is_constant (re r) && (0 <? const (re r)).
Definition contradiction (rows : list row) : option (gmap nat Z) :=
  match List.find is_contradiction rows with Some r => Some (prov r) | None => None end.
(** [vars.sort(); vars.dedup()] (145-146): insertion into an ordered list without repetition. *)
Fixpoint insert_var (x : string) (l : list string) : list string :=
  match l with
  | [] => [x]
  | y :: l' => if String.eqb x y then l else if String.ltb x y then x :: l else y :: insert_var x l'
  end.
(** The variables of all rows (141-146). *)
Definition all_vars (rows : list row) : list string :=
  fold_right insert_var [] (flat_map (fun r => (map_to_list (coeffs (re r))).*1) rows).
(** One pair (159-165). *)
Definition pair_row (v : string) (p n : row) : row :=
  let pc := coeff (re p) v in let nc := - coeff (re n) v in
  Row (le_add (le_scale (re p) nc) (le_scale (re n) pc)) (combine_prov (prov p) nc (prov n) pc).
(** Elimination of one variable (149-168). *)
Definition eliminate (v : string) (rows : list row) : list row :=
  let pos := List.filter (fun r => 0 <? coeff (re r) v) rows in
  let neg := List.filter (fun r => coeff (re r) v <? 0) rows in
  let zero := List.filter (fun r => coeff (re r) v =? 0) rows in
  zero ++ flat_map (fun p => map (pair_row v p) neg) pos.
(** The loop (148-172) and the final check (174). *)
Fixpoint eliminate_all (vs : list string) (rows : list row) : option (gmap nat Z) :=
  match vs with
  | [] => contradiction rows
  | v :: vs =>
      let next := eliminate v rows in
      match contradiction next with Some p => Some p | None => eliminate_all vs next end
  end.
(** The starting rows (124-128): index [i], multiplier 1. *)
Fixpoint start_rows (i : nat) (cs : list linexpr) : list row :=
  match cs with [] => [] | e :: cs => Row e {[i := 1]} :: start_rows (S i) cs end.
(** [find_farkas] (123-175). *)
Definition find_farkas (cs : list linexpr) : option (gmap nat Z) :=
  let rows := start_rows 0 cs in
  match contradiction rows with Some p => Some p | None => eliminate_all (all_vars rows) rows end.

(** [combine] (180-186): the multipliers in ascending index order; [None] is the panic of indexing beyond
    the slice. *)
Definition combine (cs : list linexpr) (mult : gmap nat Z) : option linexpr :=
  if forallb (fun i => (i <? length cs)%nat) ((map_to_list mult).*1) then
    Some (fold_left (fun acc i => match mult !! i, cs !! i with
                                  | Some m, Some c => le_add acc (le_scale c m)
                                  | _, _ => acc
                                  end) (seq 0 (length cs)) (le_constant 0))
  else None.
