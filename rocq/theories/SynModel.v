(** Model of [crates/logicaffeine_kernel/src/reify.rs] and of the goal readers of
    [crates/logicaffeine_kernel/src/reduction.rs] used by the [ring], [lia], [omega] and [cc]
    procedures. *)
From Coq Require Import ZArith String List.
From stdpp Require Import gmap strings list.
Local Open Scope string_scope.

(** term.rs:445-520 [Term], term.rs:13-44 [Literal]: only applications, globals, machine integer
    literals and text literals are looked at by these procedures; every other constructor is one
    opaque [TOther], told apart by a number. *)
Inductive term :=
  | TApp (f a : term) | TGlobal (s : string) | TInt (n : Z) | TText (s : string) | TOther (n : nat).

(** The embedded syntax: [SLit n], [SVar i], [SName s], [SApp f a]. *)
Definition SLIT (n : Z) : term := TApp (TGlobal "SLit") (TInt n).
Definition SVAR (i : Z) : term := TApp (TGlobal "SVar") (TInt i).
Definition SNAME (s : string) : term := TApp (TGlobal "SName") (TText s).
Definition SAPP (f a : term) : term := TApp (TApp (TGlobal "SApp") f) a.
Definition SBIN (op : string) (a b : term) : term := SAPP (SAPP (SNAME op) a) b.

(** reify.rs:53-64 [extract_slit]. *)
Definition extract_slit (t : term) : option Z :=
  match t with TApp (TGlobal c) (TInt n) => if c =? "SLit" then Some n else None | _ => None end.
(** reify.rs:67-78 [extract_svar]. *)
Definition extract_svar (t : term) : option Z :=
  match t with TApp (TGlobal c) (TInt n) => if c =? "SVar" then Some n else None | _ => None end.
(** reify.rs:81-92 [extract_sname]; reduction.rs:2360-2371 [extract_sname_from_syntax]. *)
Definition extract_sname (t : term) : option string :=
  match t with TApp (TGlobal c) (TText s) => if c =? "SName" then Some s else None | _ => None end.
(** reify.rs:95-122 [extract_binary_app]; cc.rs:385-411 is the same text. *)
Definition extract_binary_app (t : term) : option (string * term * term) :=
  match t with
  | TApp (TApp (TGlobal c) (TApp (TApp (TGlobal c2) o) a)) b =>
      if c =? "SApp" then
        if c2 =? "SApp" then
          match extract_sname o with Some op => Some (op, a, b) | None => None end
        else None
      else None
  | _ => None
  end.
(** reduction.rs:1772-1807 [extract_implication]. *)
Definition extract_implication (t : term) : option (term * term) :=
  match extract_binary_app t with
  | Some (s, a, b) => if (s =? "Implies") || (s =? "implies") then Some (a, b) else None
  | None => None
  end.
(** reduction.rs:1813-1827 [extract_implications]: the loop recurses on a proper subterm. *)
Fixpoint peel_implications (t : term) : list term * term :=
  match t with
  | TApp (TApp (TGlobal c) (TApp (TApp (TGlobal c2) o) a)) b =>
      match extract_implication t with
      | Some _ => let '(hs, r) := peel_implications b in (a :: hs, r)
      | None => ([], t)
      end
  | _ => ([], t)
  end.
Definition extract_implications (t : term) : option (list term * term) :=
  match peel_implications t with
  | ([], _) => None
  | r => Some r
  end.
(** reduction.rs:2172-2225 [extract_eq]: [SApp (SApp (SApp (SName "Eq") T) a) b]. *)
Definition extract_eq (t : term) : option (term * term * term) :=
  match t with
  | TApp (TApp (TGlobal c) (TApp (TApp (TGlobal c2) (TApp (TApp (TGlobal c3) (TApp (TGlobal sn) (TText s))) ty)) a)) b =>
      if (c =? "SApp") && (c2 =? "SApp") && (c3 =? "SApp") && (sn =? "SName") && (s =? "Eq") then Some (ty, a, b) else None
  | _ => None
  end.
(** lia.rs:252-262 and omega.rs:259-269 [extract_comparison]. *)
Definition extract_comparison (t : term) : option (string * term * term) :=
  match extract_binary_app t with
  | Some (rel, l, r) =>
      if existsb (fun s => rel =? s) ["Lt"; "Le"; "Gt"; "Ge"; "lt"; "le"; "gt"; "ge"] then Some (rel, l, r) else None
  | None => None
  end.

(** The recursion pattern shared by [ring::reify], [lia::reify_linear] and
    [omega::reify_int_linear]: each node is tried as a literal, a variable, a name and a binary
    application, in this order. One traversal records which case applied. *)
Inductive stx := XLit (n : Z) | XVar (i : Z) | XName (s : string) | XBin (op : string) (a b : stx) | XBad.
Fixpoint read (t : term) : stx :=
  match extract_slit t with
  | Some n => XLit n
  | None =>
      match extract_svar t with
      | Some i => XVar i
      | None =>
          match extract_sname t with
          | Some s => XName s
          | None =>
              match t with
              | TApp (TApp (TGlobal c) (TApp (TApp (TGlobal c2) o) a)) b =>
                  match extract_binary_app t with Some (op, _, _) => XBin op (read a) (read b) | None => XBad end
              | _ => XBad
              end
          end
      end
  end.

(** reify.rs:27-49 [VarInterner]; the index is an unbounded integer (the code's [i64] would wrap
    after 2^63 names). *)
Record interner := Interner { in_map : gmap string Z; in_next : Z }.
Definition in_new : interner := Interner ∅ (-1000000)%Z.
Definition intern (st : interner) (s : string) : interner * Z :=
  match in_map st !! s with
  | Some i => (st, i)
  | None => (Interner (<[s := in_next st]> (in_map st)) (in_next st - 1)%Z, in_next st)
  end.
