(** What the embedded syntax means: values of arithmetic terms, truth of goals. These definitions
    refer only to the syntax, not to the decision procedures. *)
From Coq Require Import ZArith String List Lia.
From stdpp Require Import gmap strings list.
From Verif Require Import SynModel.
Local Open Scope string_scope.

Section Val.
  Context {R : Type} (radd rmul rsub : R -> R -> R) (of_Z : Z -> R).
  (** The value of an arithmetic term under an interpretation of the de Bruijn variables and of
      the names; [None] for anything that is not built from literals, variables, names, and
      [add], [sub], [mul]. *)
  Fixpoint val (rv : Z -> R) (rn : string -> R) (t : term) : option R :=
    match t with
    | TApp (TGlobal c) (TInt n) =>
        if c =? "SLit" then Some (of_Z n) else if c =? "SVar" then Some (rv n) else None
    | TApp (TGlobal c) (TText s) => if c =? "SName" then Some (rn s) else None
    | TApp (TApp (TGlobal c) (TApp (TApp (TGlobal c2) (TApp (TGlobal c3) (TText op))) a)) b =>
        if (c =? "SApp") && (c2 =? "SApp") && (c3 =? "SName") then
          match val rv rn a, val rv rn b with
          | Some x, Some y =>
              if op =? "add" then Some (radd x y)
              else if op =? "sub" then Some (rsub x y)
              else if op =? "mul" then Some (rmul x y)
              else None
          | _, _ => None
          end
        else None
    | _ => None
    end.

  Fixpoint xval (rv : Z -> R) (rn : string -> R) (x : stx) : option R :=
    match x with
    | XLit n => Some (of_Z n)
    | XVar i => Some (rv i)
    | XName s => Some (rn s)
    | XBin op a b =>
        match xval rv rn a, xval rv rn b with
        | Some x, Some y =>
            if op =? "add" then Some (radd x y)
            else if op =? "sub" then Some (rsub x y)
            else if op =? "mul" then Some (rmul x y)
            else None
        | _, _ => None
        end
    | XBad => None
    end.
  Fixpoint tsize (t : term) : nat := match t with TApp f a => S (tsize f + tsize a) | _ => 1 end.
  Lemma val_read rv rn t : val rv rn t = xval rv rn (read t).
  Proof.
    remember (tsize t) as n eqn:E. assert (Hn : tsize t <= n) by lia. clear E. revert t Hn.
    induction n as [|n IH]; intros t Hn; [destruct t; cbn in Hn; lia|].
    destruct t as [f b|s|z|s|k]; try done. destruct f as [f1 f2|c|z|s|k]; try done.
    - destruct f1 as [g1 g2|c|z|s|k]; try done. destruct f2 as [h1 a|c'|z|s|k]; try (destruct (c =? "SApp"); reflexivity).
      destruct h1 as [i1 o|c'|z|s|k]; try reflexivity.
      destruct i1 as [?|c2|?|?|?]; try reflexivity.
      destruct o as [o1 o2|?|?|?|?]; try (cbn; destruct (c =? "SApp"), (c2 =? "SApp"); reflexivity).
      destruct o1 as [?|c3|?|?|?]; try (cbn; destruct (c =? "SApp"), (c2 =? "SApp"); reflexivity).
      destruct o2 as [?|?|?|op|?]; try (cbn; destruct (c =? "SApp"), (c2 =? "SApp"); reflexivity).
      cbn in Hn. pose proof (IH a ltac:(lia)) as Ha. pose proof (IH b ltac:(lia)) as Hb.
      cbn [val read extract_slit extract_svar extract_sname extract_binary_app].
      destruct (c =? "SApp"), (c2 =? "SApp"); try done. destruct (c3 =? "SName"); cbn [andb]; [|done].
      cbn [xval]. by rewrite Ha, Hb.
    - destruct b as [?|?|z|s|?]; try done.
      + cbn. destruct (c =? "SLit"); [done|]. by destruct (c =? "SVar").
      + cbn. by destruct (c =? "SName").
  Qed.
End Val.

(** The order relations by name. *)
Definition is_lt (s : string) : bool := (s =? "Lt") || (s =? "lt").
Definition is_le (s : string) : bool := (s =? "Le") || (s =? "le").
Definition is_gt (s : string) : bool := (s =? "Gt") || (s =? "gt").
Definition is_ge (s : string) : bool := (s =? "Ge") || (s =? "ge").

(** The goal language over the integers: implications of comparisons between integer terms; any
    other goal, and a comparison whose sides have no value, is given an arbitrary truth value. *)
Section Holds.
  Context (other : term -> Prop).
  Definition cmp (rel : string) (x y : Z) (dflt : Prop) : Prop :=
    if is_lt rel then (x < y)%Z else if is_le rel then (x <= y)%Z
    else if is_gt rel then (x > y)%Z else if is_ge rel then (x >= y)%Z else dflt.
  Fixpoint holds (rv : Z -> Z) (rn : string -> Z) (t : term) : Prop :=
    match t with
    | TApp (TApp (TGlobal c) (TApp (TApp (TGlobal c2) (TApp (TGlobal c3) (TText op))) a)) b =>
        if (c =? "SApp") && (c2 =? "SApp") && (c3 =? "SName") then
          if (op =? "Implies") || (op =? "implies") then holds rv rn a -> holds rv rn b
          else
            match val Z.add Z.mul Z.sub id rv rn a, val Z.add Z.mul Z.sub id rv rn b with
            | Some x, Some y => cmp op x y (other t)
            | _, _ => other t
            end
        else other t
    | _ => other t
    end.
End Holds.

(** Every [SVar] of a term has an index above a bound. *)
Fixpoint vars_above (k : Z) (t : term) : Prop :=
  match t with
  | TApp (TGlobal c) (TInt n) => if c =? "SVar" then (k < n)%Z else True
  | TApp f a => vars_above k f /\ vars_above k a
  | _ => True
  end.
