(** Model of the native file store's treatment of names: crates/logicaffeine_system/src/fs/mod.rs
    lines 183–276. What the operating system does with a path (components, [.] and [..]) follows
    POSIX without symbolic links; the store's root is an absolute path. *)
From Coq Require Import List Ascii String.
From stdpp Require Import list.
Open Scope list_scope.

Notation text := (list ascii).
Definition text_dec : forall a b : text, {a = b} + {a <> b} := List.list_eq_dec ascii_dec.
Definition place_dec : forall a b : list text, {a = b} + {a <> b} := List.list_eq_dec text_dec.
Definition slash : ascii := "/"%char.
Definition dot : ascii := "."%char.

(** fs/mod.rs 201: [trim_start_matches('/')]. *)
Fixpoint trim_slashes (s : text) : text := match s with c :: r => if ascii_dec c slash then trim_slashes r else s | [] => [] end.
(** fs/mod.rs 201: [trim_start_matches("../")]. *)
Fixpoint trim_ups (s : text) : text :=
  match s with
  | a :: b :: c :: r => if ascii_dec a dot then if ascii_dec b dot then if ascii_dec c slash then trim_ups r else s else s else s
  | _ => s
  end.
(** [Path::join] with an absolute left side that does not end in a slash. *)
Definition join_path (base rel : text) : text := match rel with c :: _ => if ascii_dec c slash then rel else base ++ slash :: rel | [] => base ++ [slash] end.
(** fs/mod.rs 199–203. *)
Definition resolve (base path : text) : text := join_path base (trim_ups (trim_slashes path)).

(** The operating system's view: names between slashes, without empty ones and [.]. *)
Fixpoint split_slash (s : text) (cur : text) : list text :=
  match s with
  | [] => [rev cur]
  | c :: r => if ascii_dec c slash then rev cur :: split_slash r [] else split_slash r (c :: cur)
  end.
Definition names (s : text) : list text := List.filter (fun n => match n with [] => false | [c] => if ascii_dec c dot then false else true | _ => true end) (split_slash s []).
Definition up : text := [dot; dot].
(** Where an absolute path leads: [..] goes up, and stays at the root. *)
Definition walk (l : list text) : list text := fold_left (fun acc n => if text_dec n up then removelast acc else acc ++ [n]) l [].
Definition target (path : text) : list text := walk (names path).

(** ** Files *)
(** [Path::with_extension("tmp")], on the last name of a path. *)
Fixpoint last_dot (s : text) (n : nat) (found : option nat) : option nat := match s with [] => found | c :: r => last_dot r (S n) (if ascii_dec c dot then Some n else found) end.
Definition stem (name : text) : text := match last_dot name 0 None with None | Some O => name | Some n => firstn n name end.
Definition ext_tmp : text := [dot; "t"; "m"; "p"]%char.
Definition temp_of (t : list text) : list text := match rev t with [] => [] | n :: r => rev r ++ [stem n ++ ext_tmp] end.
(** Contents by place. *)
Definition store := list text -> option (list ascii).
Definition put (f : store) (p : list text) (c : option (list ascii)) : store := fun q => if place_dec q p then c else f q.
(** fs/mod.rs 219–233: write the temporary file, then rename it; renaming a file to itself does
    nothing. *)
Definition write (base : text) (f : store) (path contents : text) : store :=
  let p := target (resolve base path) in let t := temp_of p in
  let f1 := put f t (Some contents) in
  if place_dec t p then f1 else put (put f1 p (f1 t)) t None.
(** fs/mod.rs 209–212. *)
Definition read (base : text) (f : store) (path : text) : option (list ascii) := f (target (resolve base path)).
(** fs/mod.rs 235–255. *)
Definition append (base : text) (f : store) (path contents : text) : store := let p := target (resolve base path) in put f p (Some (default [] (f p) ++ contents)).
(** fs/mod.rs 262–265: removing a missing file is an error and changes nothing. *)
Definition remove (base : text) (f : store) (path : text) : store := put f (target (resolve base path)) None.
