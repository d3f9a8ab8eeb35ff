(** Model of the DIMACS reader and printer (crates/logicaffeine_proof/src/dimacs.rs, cdcl.rs 20-68). *)
From Coq Require Import List Bool ZArith NArith.
Import ListNotations.
Open Scope N_scope.

(** A string is the list of its characters, a character its Unicode scalar value. *)
Notation text := (list N).
(** char::is_whitespace. *)
Definition is_ws (c : N) : bool :=
  ((9 <=? c) && (c <=? 13)) || (c =? 32) || (c =? 0x85) || (c =? 0xA0) || (c =? 0x1680) || ((0x2000 <=? c) && (c <=? 0x200A)) ||
  (c =? 0x2028) || (c =? 0x2029) || (c =? 0x202F) || (c =? 0x205F) || (c =? 0x3000).
(** str::lines: the text is split at line feeds. It also drops a carriage return before a line feed and a last empty line; both are whitespace only, which parse trims and skips. *)
Fixpoint lines_from (cur : text) (s : text) : list text :=
  match s with [] => [cur] | c :: s => if c =? 10 then cur :: lines_from [] s else lines_from (cur ++ [c]) s end.
Definition lines (s : text) : list text := lines_from [] s.
(** str::trim. *)
Fixpoint trim_start (s : text) : text := match s with c :: s' => if is_ws c then trim_start s' else s | [] => [] end.
Definition trim (s : text) : text := rev (trim_start (rev (trim_start s))).
(** str::split_whitespace. *)
Fixpoint split_from (cur : text) (s : text) : list text :=
  match s with
  | [] => match cur with [] => [] | _ => [cur] end
  | c :: s => if is_ws c then match cur with [] => split_from [] s | _ => cur :: split_from [] s end else split_from (cur ++ [c]) s
  end.
Definition split_whitespace (s : text) : list text := split_from [] s.
(** The digits of str::parse on integers: at least one, all decimal. *)
Definition digit (c : N) : option N := if (48 <=? c) && (c <=? 57) then Some (c - 48) else None.
Fixpoint digits_from (acc : N) (s : text) : option N :=
  match s with [] => Some acc | c :: s => match digit c with Some d => digits_from (acc * 10 + d) s | None => None end end.
Definition digits (s : text) : option N := match s with [] => None | _ => digits_from 0 s end.
(** str::parse::<usize>, with 64 bits: a leading plus is allowed, a minus is not. *)
Definition parse_usize (s : text) : option N :=
  match (match s with 43 :: s' => digits s' | _ => digits s end) with Some n => if n <? 2 ^ 64 then Some n else None | None => None end.
(** str::parse::<i64>. *)
Definition parse_i64 (s : text) : option Z :=
  match s with
  | 43 :: s' => match digits s' with Some n => if n <? 2 ^ 63 then Some (Z.of_N n) else None | None => None end
  | 45 :: s' => match digits s' with Some n => if n <=? 2 ^ 63 then Some (- Z.of_N n)%Z else None | None => None end
  | _ => match digits s with Some n => if n <? 2 ^ 63 then Some (Z.of_N n) else None | None => None end
  end.

(** cdcl.rs 25-57: a literal is a u32; the shift drops the top bit. *)
Notation lit := N.
Definition lit_new (v : N) (positive : bool) : lit := (v * 2) mod 2 ^ 32 + (if positive then 0 else 1).
Definition lit_var (l : lit) : N := l / 2.
Definition lit_positive (l : lit) : bool := N.even l.

(** 18-36. *)
Record cnf := Cnf { num_vars : N; clauses : list (list lit) }.
Inductive error := MissingHeader | MalformedHeader (line : text) | VarOutOfRange (var : Z) (num_vars : N) | InvalidToken (token : text) | UnterminatedClause.
Inductive result (A : Type) := Ok (a : A) | Err (e : error).
Arguments Ok {A} a.
Arguments Err {A} e.
(** 81-92. *)
Fixpoint read_tokens (n : N) (cs : list (list lit)) (cur : list lit) (toks : list text) : result (list (list lit) * list lit) :=
  match toks with
  | [] => Ok (cs, cur)
  | tok :: toks =>
      match parse_i64 tok with
      | None => Err (InvalidToken tok)
      | Some i =>
          if (i =? 0)%Z then read_tokens n (cs ++ [cur]) [] toks
          else let v := Z.abs_N i in
               if n <? v then Err (VarOutOfRange i n)
               else read_tokens n cs (cur ++ [lit_new ((v - 1) mod 2 ^ 32) (0 <? i)%Z]) toks
      end
  end.
(** 65-77; [line] begins with "p ". *)
Definition strip_p (line : text) : option text := match line with 112 :: 32 :: rest => Some rest | _ => None end.
Definition read_header (line rest : text) : result N :=
  match split_whitespace rest with
  | [[99; 110; 102]; nv; nc] =>
      match parse_usize nv, parse_usize nc with Some n, Some _ => Ok n | _, _ => Err (MalformedHeader line) end
  | _ => Err (MalformedHeader line)
  end.
(** 51-99. *)
Definition skipped (line : text) : bool := match line with [] => true | c :: _ => c =? 99 end.
Fixpoint read_lines (header : option N) (cs : list (list lit)) (cur : list lit) (ls : list text) : result cnf :=
  match ls with
  | [] =>
      match header with
      | None => Err MissingHeader
      | Some n => match cur with [] => Ok (Cnf n cs) | _ => Err UnterminatedClause end
      end
  | l :: ls =>
      let line := trim l in
      if skipped line then read_lines header cs cur ls
      else match strip_p line with
           | Some rest =>
               match header with
               | Some _ => Err (MalformedHeader line)
               | None => match read_header line rest with Ok n => read_lines (Some n) cs cur ls | Err e => Err e end
               end
           | None =>
               match header with
               | None => Err MissingHeader
               | Some n => match read_tokens n cs cur (split_whitespace line) with Ok (cs, cur) => read_lines header cs cur ls | Err e => Err e end
               end
           end
  end.
Definition parse (s : text) : result cnf := read_lines None [] [] (lines s).

(** Display of an unsigned integer. *)
Fixpoint dec_from (n : nat) (x : N) (acc : text) : text :=
  match n with O => acc | S n => let acc := (48 + x mod 10) :: acc in if x / 10 =? 0 then acc else dec_from n (x / 10) acc end.
Definition dec (x : N) : text := dec_from (S (N.size_nat x)) x [].
(** 102-113. *)
Definition print_lit (l : lit) : text := (if lit_positive l then [] else [45]) ++ dec (lit_var l + 1) ++ [32].
Definition print_clause (c : list lit) : text := concat (map print_lit c) ++ [48; 10].
Definition print (f : cnf) : text :=
  [112; 32; 99; 110; 102; 32] ++ dec (num_vars f) ++ [32] ++ dec (N.of_nat (length (clauses f))) ++ [10] ++ concat (map print_clause (clauses f)).
