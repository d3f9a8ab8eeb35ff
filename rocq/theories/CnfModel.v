(** Model of the clausifier [crates/logicaffeine_proof/src/cnf.rs]: structure-aware clausification
    and Tseitin encoding with structural hashing. Variables are [nat] (the code's [u32] does not
    overflow). Expressions are those of [UnifyModel]; the forms the clausifier refuses are all
    refused alike. *)
From Coq Require Import String List Arith Bool.
From stdpp Require Import gmap strings list.
From Verif Require Import UnifyModel RupModel.
Local Open Scope string_scope.
Local Open Scope list_scope.

(** cnf.rs:342-352 [term_key]; [join(",")] is the second function. *)
Fixpoint join (l : list string) : string :=
  match l with [] => "" | [s] => s | s :: l => s +:+ "," +:+ join l end.
Fixpoint term_key (t : pterm) : string :=
  match t with
  | PConst s => s
  | PVar s | PBound s => "?" +:+ s
  | PFun n l => n +:+ "(" +:+ join (map term_key l) +:+ ")"
  | PGroup _ => "<group>"
  end.
(** cnf.rs:317-340 [atom_key]; the loop at 322-327 is [join]. *)
Definition atom_key (e : pexpr) : option string :=
  match e with
  | EPred p l _ => Some (p +:+ "(" +:+ join (map term_key l) +:+ ")")
  | EIdent a b =>
      let ka := term_key a in let kb := term_key b in
      let '(lo, hi) := if String.leb ka kb then (ka, kb) else (kb, ka) in
      Some ("=" +:+ lo +:+ "=" +:+ hi)
  | EAtom s => Some ("atom:" +:+ s)
  | _ => None
  end.

(** cnf.rs:14-17: the operator tags. *)
Inductive op := OpAnd | OpOr | OpImpl | OpIff.
Global Instance op_eq_dec : EqDecision op.
Proof. solve_decision. Defined.
(** cnf.rs:21-28 [order2]; [bool] is ordered false before true. *)
Definition lit_key_leb (a b : lit) : bool :=
  ((lvar a <? lvar b) || ((lvar a =? lvar b) && implb (lpos a) (lpos b)))%nat.
Definition order2 (a b : lit) : lit * lit := if lit_key_leb a b then (a, b) else (b, a).

(** cnf.rs:34-47 [Cnf]. [clause_seen] holds exactly the clauses added so far, so it is the clause list
    itself; the cache is a list of entries searched by key. *)
Record cnf := Cnf { atom_of : gmap string nat; num_vars : nat; clauses : list clause;
                    expr_cache : list ((op * lit * lit) * lit) }.
(** cnf.rs:50-52 [new]. *)
Definition empty : cnf := Cnf ∅ 0 [] [].
(** cnf.rs:90-94 [fresh]. *)
Definition fresh (c : cnf) : nat * cnf := (num_vars c, Cnf (atom_of c) (S (num_vars c)) (clauses c) (expr_cache c)).
(** cnf.rs:97-104 [atom_var]. *)
Definition atom_var (c : cnf) (key : string) : nat * cnf :=
  match atom_of c !! key with
  | Some v => (v, c)
  | None => let '(v, c) := fresh c in (v, Cnf (<[key := v]> (atom_of c)) (num_vars c) (clauses c) (expr_cache c))
  end.
(** cnf.rs:109-119 [push_clause]: sort, drop repetitions, drop tautologies and known clauses. *)
Fixpoint insert_sorted (l : lit) (c : clause) : clause :=
  match c with [] => [l] | m :: c' => if lit_key_leb l m then l :: c else m :: insert_sorted l c' end.
Definition sort_clause (c : clause) : clause := foldr insert_sorted [] c.
Fixpoint dedup (c : clause) : clause :=
  match c with
  | l :: ((m :: _) as c') => if bool_decide (l = m) then dedup c' else l :: dedup c'
  | _ => c
  end.
Fixpoint adjacent_vars (c : clause) : bool :=
  match c with l :: ((m :: _) as c') => (lvar l =? lvar m)%nat || adjacent_vars c' | _ => false end.
Definition push_clause (c : cnf) (lits : clause) : cnf :=
  let lits := dedup (sort_clause lits) in
  if adjacent_vars lits then c
  else if bool_decide (lits ∈ clauses c) then c
  else Cnf (atom_of c) (num_vars c) (clauses c ++ [lits]) (expr_cache c).

Fixpoint cache_get (k : op * lit * lit) (l : list ((op * lit * lit) * lit)) : option lit :=
  match l with [] => None | (k', x) :: l => if bool_decide (k = k') then Some x else cache_get k l end.
(** The defining clauses of [x <-> a op b]: cnf.rs:134-137, 147-150, 162-165, 174-178. *)
Definition definition_of (o : op) (x a b : lit) : list clause :=
  match o with
  | OpAnd => [[negated x; a]; [negated x; b]; [x; negated a; negated b]]
  | OpOr => [[negated x; a; b]; [x; negated a]; [x; negated b]]
  | OpImpl => [[negated x; negated a; b]; [x; a]; [x; negated b]]
  | OpIff => [[negated x; negated a; b]; [negated x; a; negated b]; [x; a; b]; [x; negated a; negated b]]
  end.
(** cnf.rs:130-139 (and the same lines of the other operators): look up or mint an auxiliary. *)
Definition gate (c : cnf) (o : op) (a b : lit) : lit * cnf :=
  match cache_get (o, a, b) (expr_cache c) with
  | Some x => (x, c)
  | None =>
      let '(v, c) := fresh c in
      let x := Lit v true in
      let c := foldl push_clause c (definition_of o x a b) in
      (x, Cnf (atom_of c) (num_vars c) (clauses c) (((o, a, b), x) :: expr_cache c))
  end.
(** cnf.rs:125-188 [encode]. *)
Definition op_of (k : conn) : op := match k with CAnd => OpAnd | COr => OpOr | CImplies => OpImpl | CIff => OpIff end.
Fixpoint encode (c : cnf) (e : pexpr) : option (lit * cnf) :=
  match e with
  | ENot p => '(l, c) ← encode c p; Some (negated l, c)
  | EBin k p q =>
      '(a, c) ← encode c p;
      '(b, c) ← encode c q;
      let '(a, b) := match k with CImplies => (a, b) | _ => order2 a b end in
      Some (gate c (op_of k) a b)
  | _ =>
      key ← atom_key e;
      let '(v, c) := atom_var c key in Some (Lit v true, c)
  end.
(** cnf.rs:308-313 [negate_expr]. *)
Definition negate_expr (e : pexpr) : pexpr := match e with ENot p => p | _ => ENot e end.
(** cnf.rs:262-274 [lit_of_atom]. *)
Definition lit_of_atom (c : cnf) (e : pexpr) : option (lit * cnf) :=
  match e with
  | ENot p => key ← atom_key p; let '(v, c) := atom_var c key in Some (negated (Lit v true), c)
  | EPred _ _ _ | EIdent _ _ | EAtom _ => key ← atom_key e; let '(v, c) := atom_var c key in Some (Lit v true, c)
  | _ => None
  end.
(** cnf.rs:228-259 [clause_lits]. The code recurses on [negate_expr] of subexpressions; here
    [clause_lits_of false e] is [clause_lits (negate_expr e)], so that the recursion is structural.
    [clause_lits_eq] in CnfProofs.v shows that the code's equations hold. *)
Fixpoint clause_lits_of (positive : bool) (c : cnf) (e : pexpr) : option (clause * cnf) :=
  match positive, e with
  | false, ENot p => clause_lits_of true c p
  | true, ENot p =>
      match lit_of_atom c e with
      | Some (l, c) => Some ([l], c)
      | None =>
          match p with
          | EBin CAnd a b => '(v, c) ← clause_lits_of false c a; '(w, c) ← clause_lits_of false c b; Some (v ++ w, c)
          | ENot x => clause_lits_of true c x
          | _ => '(l, c) ← encode c e; Some ([l], c)
          end
      end
  | true, EBin COr a b => '(v, c) ← clause_lits_of true c a; '(w, c) ← clause_lits_of true c b; Some (v ++ w, c)
  | true, EBin CImplies a b => '(v, c) ← clause_lits_of false c a; '(w, c) ← clause_lits_of true c b; Some (v ++ w, c)
  | true, _ =>
      match lit_of_atom c e with
      | Some (l, c) => Some ([l], c)
      | None => '(l, c) ← encode c e; Some ([l], c)
      end
  | false, EBin CAnd a b => '(v, c) ← clause_lits_of false c a; '(w, c) ← clause_lits_of false c b; Some (v ++ w, c)
  | false, _ =>
      match lit_of_atom c (ENot e) with
      | Some (l, c) => Some ([l], c)
      | None => '(l, c) ← encode c (ENot e); Some ([l], c)
      end
  end.
Definition clause_lits (c : cnf) (e : pexpr) : option (clause * cnf) := clause_lits_of true c e.
(** cnf.rs:198-218 [assert]. *)
Fixpoint assert_expr (c : cnf) (e : pexpr) : option cnf :=
  match e with
  | EBin CAnd a b => c ← assert_expr c a; assert_expr c b
  | EBin CImplies a b =>
      '(v, c) ← clause_lits c (negate_expr a);
      '(w, c) ← clause_lits c b;
      Some (push_clause c (v ++ w))
  | _ => '(v, c) ← clause_lits c e; Some (push_clause c v)
  end.
(** cnf.rs:221-223 [assert_neg]. *)
Definition assert_neg (c : cnf) (e : pexpr) : option cnf := assert_expr c (negate_expr e).
(** cnf.rs:57-63 [from_premises] (and the loop of 298-301). *)
Fixpoint assert_all (c : cnf) (l : list pexpr) : option cnf :=
  match l with [] => Some c | e :: l => c ← assert_expr c e; assert_all c l end.
Definition from_premises (l : list pexpr) : option cnf := assert_all empty l.
(** cnf.rs:297-305 [cdcl_entails] up to the call of the solver: the clauses handed to it. *)
Definition entailment_query (premises : list pexpr) (goal : pexpr) : option cnf :=
  c ← from_premises premises; assert_neg c goal.
(** cnf.rs:84-88 [atom_value]. *)
Definition atom_value (c : cnf) (e : pexpr) (model : list bool) : option bool :=
  key ← atom_key e; v ← atom_of c !! key; model !! v.
