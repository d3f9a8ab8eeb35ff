(** Model of collections with copy-on-write in the tree-walking interpreter
    (crates/logicaffeine_compile/src/interpreter.rs 4056-4090 and 4280-4395, 1267-1317; semantics/collections.rs). *)
From Coq Require Import ZArith List Bool.
From stdpp Require Import gmap.

(** A list is a reference to a cell; a structure is held by value. Maps, sets and the other values are left out. *)
Inductive val := VNum (z : Z) | VRef (l : nat) | VStruct (fs : list (nat * val)).
(** What a value stands for. *)
Inductive tree := TNum (z : Z) | TList (ts : list tree) | TStruct (fs : list (nat * tree)).
Notation heap := (gmap nat (list val)).
Notation venv := (gmap nat val).
Inductive out (A : Type) := Ok (a : A) | Err | Stop.
Arguments Ok {A}. Arguments Err {A}. Arguments Stop {A}.
Definition obind {A B} (o : out A) (f : A -> out B) : out B := match o with Ok a => f a | Err => Err | Stop => Stop end.

(** Occurrences of a reference, and Rc::strong_count: those in variables, cells and the value in hand. *)
Fixpoint occ (l : nat) (v : val) : nat :=
  match v with VNum _ => 0 | VRef l' => if Nat.eqb l l' then 1 else 0 | VStruct fs => (fix go fs := match fs with [] => 0 | p :: fs => occ l (snd p) + go fs end) fs end.
Definition occs (l : nat) (vs : list val) : nat := list_sum (map (occ l) vs).
Definition strong_count (l : nat) (h : heap) (env : venv) (temps : list val) : nat :=
  list_sum (map (fun p => occs l (snd p)) (map_to_list h)) + list_sum (map (fun p => occ l (snd p)) (map_to_list env)) + occs l temps.
(** interpreter.rs 1267-1317 deep_clone; [n] bounds the depth, [nx] is the next free cell. *)
Fixpoint deep (n : nat) (h : heap) (nx : nat) (v : val) : out (val * heap * nat) :=
  match n with O => Stop | S n =>
    let all := fix all (h : heap) (nx : nat) (vs : list val) : out (list val * heap * nat) :=
      match vs with
      | [] => Ok ([], h, nx)
      | v :: vs => obind (deep n h nx v) (fun '(w, h1, nx1) => obind (all h1 nx1 vs) (fun '(ws, h2, nx2) => Ok (w :: ws, h2, nx2)))
      end in
    match v with
    | VNum z => Ok (VNum z, h, nx)
    | VRef l => match h !! l with None => Stop | Some vs => obind (all h nx vs) (fun '(ws, h1, nx1) => Ok (VRef nx1, <[nx1 := ws]> h1, S nx1)) end
    | VStruct fs => obind (all h nx (map snd fs)) (fun '(ws, h1, nx1) => Ok (VStruct (combine (map fst fs) ws), h1, nx1))
    end
  end.
(** What Show prints of a value. *)
Fixpoint read (n : nat) (h : heap) (v : val) : option tree :=
  match n with O => None | S n =>
    match v with
    | VNum z => Some (TNum z)
    | VRef l => vs ← h !! l; ts ← mapM (read n h) vs; Some (TList ts)
    | VStruct fs => ts ← mapM (read n h) (map snd fs); Some (TStruct (combine (map fst fs) ts))
    end
  end.
(** Dropping the last reference to a cell frees it, and then those only it referred to. *)
Fixpoint collect (n : nat) (h : heap) (env : venv) : heap :=
  match n with O => h | S n => collect n (filter (fun p => strong_count (fst p) h env [] <> 0) h) env end.
(** collections.rs 74-92 resolve_index. *)
Definition resolve (i : Z) (len : nat) : option nat :=
  if (1 <=? i)%Z then let k := Z.to_nat (i - 1) in if Nat.ltb k len then Some k else None
  else if (i <=? -1)%Z then let back := Z.to_nat (- i) in if Nat.leb back len then Some (len - back) else None else None.
Fixpoint field {A} (f : nat) (fs : list (nat * A)) : option A := match fs with [] => None | (g, v) :: fs => if Nat.eqb g f then Some v else field f fs end.
Fixpoint put_field {A} (f : nat) (v : A) (fs : list (nat * A)) : list (nat * A) :=
  match fs with [] => [(f, v)] | (g, w) :: fs => if Nat.eqb g f then (g, v) :: fs else (g, w) :: put_field f v fs end.

(** Expressions; the fields of a new structure are variables. *)
Inductive expr := EVar (x : nat) | ENum (z : Z) | ENew | EItem (e : expr) (i : Z) | EField (e : expr) (f : nat) | EStruct (fs : list (nat * nat)) | ECopy (e : expr).
Definition vars {A} (env : gmap nat A) (fs : list (nat * nat)) : option (list (nat * A)) := mapM (fun p => v ← env !! snd p; Some (fst p, v)) fs.
Fixpoint eval (n : nat) (h : heap) (nx : nat) (env : venv) (e : expr) : out (val * heap * nat) :=
  match e with
  | EVar x => match env !! x with Some v => Ok (v, h, nx) | None => Err end
  | ENum z => Ok (VNum z, h, nx)
  | ENew => Ok (VRef nx, <[nx := []]> h, S nx)
  | EItem e i => obind (eval n h nx env e) (fun '(v, h1, nx1) => match v with
      | VRef l => match h1 !! l with Some vs => match resolve i (length vs) with Some k => match vs !! k with Some w => Ok (w, h1, nx1) | None => Err end | None => Err end | None => Stop end
      | _ => Err end)
  | EField e f => obind (eval n h nx env e) (fun '(v, h1, nx1) => match v with VStruct fs => match field f fs with Some w => Ok (w, h1, nx1) | None => Err end | _ => Err end)
  | EStruct fs => match vars env fs with Some ws => Ok (VStruct ws, h, nx) | None => Err end
  | ECopy e => obind (eval n h nx env e) (fun '(v, h1, nx1) => deep n h1 nx1 v)
  end.

(** Statements. The last three change a list that is not a variable. *)
Inductive stmt := SLet (x : nat) (e : expr) | SSet (x : nat) (e : expr) | SShow (e : expr) | SPush (e : expr) (x : nat) | SPop (x : nat) (into : option nat)
  | SSetIndex (x : nat) (i : Z) (e : expr) | SSetField (x f : nat) (e : expr) | SPushField (e : expr) (x f : nat) | SPushPlace (e p : expr) | SSetPlace (p : expr) (i : Z) (e : expr).
(** 4064-4090 ensure_collection_owned; [cow] is whether value semantics is on. Mutable parameters are left out. *)
Definition ensure_owned (cow : bool) (n : nat) (h : heap) (nx : nat) (env : venv) (temps : list val) (x : nat) : out (heap * nat * venv) :=
  match env !! x with
  | Some (VRef l) => if cow && Nat.ltb 1 (strong_count l h env temps) then obind (deep n h nx (VRef l)) (fun '(v, h1, nx1) => Ok (h1, nx1, <[x := v]> env)) else Ok (h, nx, env)
  | _ => Ok (h, nx, env)
  end.
(** collections.rs list_push, list_pop, index_set on a list. *)
Definition change (h : heap) (v : val) (f : list val -> option (list val * option val)) : out (heap * option val) :=
  match v with VRef l => match h !! l with Some vs => match f vs with Some (ws, r) => Ok (<[l := ws]> h, r) | None => Err end | None => Stop end | _ => Err end.
Definition push {A} (w : A) (vs : list A) : option (list A * option A) := Some (vs ++ [w], None).
Definition pop {A} (nothing : A) (vs : list A) : option (list A * option A) := Some (removelast vs, Some (List.last vs nothing)).
Definition set_at {A} (i : Z) (w : A) (vs : list A) : option (list A * option A) := k ← resolve i (length vs); Some (<[k := w]> vs, None).
Definition change_var (cow : bool) (n : nat) (h : heap) (nx : nat) (env : venv) (temps : list val) (x : nat) (f : list val -> option (list val * option val)) : out (heap * nat * venv * option val) :=
  obind (ensure_owned cow n h nx env temps x) (fun '(h1, nx1, env1) => match env1 !! x with None => Err | Some v => obind (change h1 v f) (fun '(h2, r) => Ok (h2, nx1, env1, r)) end).
Definition change_place (n : nat) (h : heap) (nx : nat) (env : venv) (p : expr) (f : list val -> option (list val * option val)) : out (heap * nat * venv * option val) :=
  obind (eval n h nx env p) (fun '(v, h1, nx1) => obind (change h1 v f) (fun '(h2, r) => Ok (h2, nx1, env, r))).
(** 4148-4395 execute_stmt_sync. An empty list pops Nothing, here the number 0. *)
Definition exec (cow : bool) (n : nat) (h : heap) (nx : nat) (env : venv) (s : stmt) : out (heap * nat * venv * list tree) :=
  let quiet := fun q : heap * nat * venv * option val => Ok (fst q, []) in
  match s with
  | SLet x e => obind (eval n h nx env e) (fun '(v, h1, nx1) => Ok (h1, nx1, <[x := v]> env, []))
  | SSet x e => obind (eval n h nx env e) (fun '(v, h1, nx1) => match env !! x with Some _ => Ok (h1, nx1, <[x := v]> env, []) | None => Err end)
  | SShow e => obind (eval n h nx env e) (fun '(v, h1, nx1) => match read n h1 v with Some t => Ok (h1, nx1, env, [t]) | None => Stop end)
  | SPush e x => obind (eval n h nx env e) (fun '(v, h1, nx1) => obind (change_var cow n h1 nx1 env [v] x (push v)) quiet)
  | SPop x into => obind (change_var cow n h nx env [] x (pop (VNum 0))) (fun '(h1, nx1, env1, r) => Ok (h1, nx1, match into, r with Some y, Some v => <[y := v]> env1 | _, _ => env1 end, []))
  | SSetIndex x i e => obind (eval n h nx env e) (fun '(v, h1, nx1) => obind (change_var cow n h1 nx1 env [v] x (set_at i v)) quiet)
  | SSetField x f e => obind (eval n h nx env e) (fun '(v, h1, nx1) => match env !! x with Some (VStruct fs) => Ok (h1, nx1, <[x := VStruct (put_field f v fs)]> env, []) | _ => Err end)
  | SPushField e x f => obind (eval n h nx env e) (fun '(v, h1, nx1) => match env !! x with
      | Some (VStruct fs) => match field f fs with Some w => obind (change h1 w (push v)) (fun '(h2, _) => Ok (h2, nx1, env, [])) | None => Err end
      | _ => Err end)
  | SPushPlace e p => obind (eval n h nx env e) (fun '(v, h1, nx1) => obind (change_place n h1 nx1 env p (push v)) quiet)
  | SSetPlace p i e => obind (eval n h nx env e) (fun '(v, h1, nx1) => obind (change_place n h1 nx1 env p (set_at i v)) quiet)
  end.
Inductive fin (A : Type) := Ended (a : A) | Failed | Stopped.
Arguments Ended {A}. Arguments Failed {A}. Arguments Stopped {A}.
Fixpoint run (cow : bool) (n : nat) (h : heap) (nx : nat) (env : venv) (p : list stmt) : list tree * fin (heap * nat * venv) :=
  match p with
  | [] => ([], Ended (h, nx, env))
  | s :: p => match exec cow n h nx env s with
              | Ok (h1, nx1, env1, o) => let '(o2, r) := run cow n (collect (size h1) h1 env1) nx1 env1 p in (o ++ o2, r)
              | Err => ([], Failed)
              | Stop => ([], Stopped)
              end
  end.

(** ** The same language over values, with no references *)
Fixpoint teval (env : gmap nat tree) (e : expr) : option tree :=
  match e with
  | EVar x => env !! x
  | ENum z => Some (TNum z)
  | ENew => Some (TList [])
  | EItem e i => t ← teval env e; match t with TList ts => k ← resolve i (length ts); ts !! k | _ => None end
  | EField e f => t ← teval env e; match t with TStruct fs => field f fs | _ => None end
  | EStruct fs => ws ← vars env fs; Some (TStruct ws)
  | ECopy e => teval env e
  end.
Definition tchange (t : tree) (f : list tree -> option (list tree * option tree)) : option (tree * option tree) :=
  match t with TList ts => r ← f ts; Some (TList (fst r), snd r) | _ => None end.
Definition texec (env : gmap nat tree) (s : stmt) : option (gmap nat tree * list tree) :=
  match s with
  | SLet x e => t ← teval env e; Some (<[x := t]> env, [])
  | SSet x e => t ← teval env e; _ ← env !! x; Some (<[x := t]> env, [])
  | SShow e => t ← teval env e; Some (env, [t])
  | SPush e x => t ← teval env e; c ← env !! x; r ← tchange c (push t); Some (<[x := fst r]> env, [])
  | SPop x into => c ← env !! x; r ← tchange c (pop (TNum 0)); Some (match into, snd r with Some y, Some t => <[y := t]> (<[x := fst r]> env) | _, _ => <[x := fst r]> env end, [])
  | SSetIndex x i e => t ← teval env e; c ← env !! x; r ← tchange c (set_at i t); Some (<[x := fst r]> env, [])
  | SSetField x f e => t ← teval env e; c ← env !! x; match c with TStruct fs => Some (<[x := TStruct (put_field f t fs)]> env, []) | _ => None end
  | SPushField e x f => t ← teval env e; c ← env !! x; match c with TStruct fs => w ← field f fs; r ← tchange w (push t); Some (<[x := TStruct (put_field f (fst r) fs)]> env, []) | _ => None end
  | SPushPlace _ _ | SSetPlace _ _ _ => None
  end.
Fixpoint trun (env : gmap nat tree) (p : list stmt) : list tree * option (gmap nat tree) :=
  match p with
  | [] => ([], Some env)
  | s :: p => match texec env s with Some (env1, o) => let '(o2, r) := trun env1 p in (o ++ o2, r) | None => ([], None) end
  end.
