(** C55: names given to the native file store. *)
From Coq Require Import List Ascii String Lia.
From stdpp Require Import list.
From Verif Require Import VfsModel.
Open Scope list_scope.
Open Scope nat_scope.

Definition str (s : string) : text := list_ascii_of_string s.
(** The place lies in the tree under the root. *)
Definition inside (base : text) (p : list text) : Prop := exists rest, p = target base ++ rest.
(** No name of the path is [..]. *)
Definition no_up (path : text) : Prop := ~ In up (names path).

Lemma trim_slashes_names s : names (trim_slashes s) = names s.
Proof. induction s as [|c r IH]; [done|]. cbn [trim_slashes]. destruct (ascii_dec c slash) as [->|]; [|done]. rewrite IH. reflexivity. Qed.
Lemma trim_slashes_head s c r : trim_slashes s = c :: r -> c <> slash.
Proof. induction s as [|d s IH]; [done|]. cbn. destruct (ascii_dec d slash) as [->|N]; [done|]. intros [= <- <-]. done. Qed.
Lemma split_app a b cur : split_slash (a ++ slash :: b) cur = split_slash a cur ++ split_slash b [].
Proof. revert cur. induction a as [|c a IH]; intros cur; cbn; [done|]. destruct (ascii_dec c slash); cbn; now rewrite IH. Qed.
Lemma names_app a b : names (a ++ slash :: b) = names a ++ names b.
Proof. unfold names. now rewrite split_app, List.filter_app. Qed.
Lemma walk_app a b : walk (a ++ b) = fold_left (fun acc n => if text_dec n up then removelast acc else acc ++ [n]) b (walk a).
Proof. apply fold_left_app. Qed.
Lemma walk_no_up l acc : ~ In up l -> fold_left (fun acc n => if text_dec n up then removelast acc else acc ++ [n]) l acc = acc ++ l.
Proof. revert acc. induction l as [|n l IH]; intros acc H; cbn; [now rewrite app_nil_r|]. destruct (text_dec n up) as [->|]; [exfalso; apply H; now left|]. rewrite IH by (intros G; apply H; now right). now rewrite <- app_assoc. Qed.
Lemma trim_ups_id s : no_up s -> trim_ups s = s.
Proof.
  unfold no_up. destruct s as [|a [|b [|c r]]]; try done. cbn [trim_ups]. destruct (ascii_dec a dot) as [->|]; [|done]. destruct (ascii_dec b dot) as [->|]; [|done]. destruct (ascii_dec c slash) as [->|]; [|done]. intros H. exfalso. apply H. change (dot :: dot :: slash :: r) with (up ++ slash :: r). rewrite names_app. apply in_or_app. left. now left.
Qed.
Lemma target_join base rel : no_up rel -> (forall c r, rel = c :: r -> c <> slash) -> target (join_path base rel) = target base ++ names rel.
Proof.
  intros H Hs. unfold target. destruct rel as [|c r].
  - cbn [join_path]. rewrite names_app, walk_app, walk_no_up by (intros []). done.
  - cbn [join_path]. destruct (ascii_dec c slash) as [->|]; [now destruct (Hs slash r eq_refl)|]. rewrite names_app, walk_app. now apply walk_no_up.
Qed.
(** A path none of whose names is [..] leads to that place under the root. *)
Theorem C55_plain_inside (base path : text) : no_up path -> target (resolve base path) = target base ++ names path.
Proof.
  intros H. unfold resolve. assert (H' : no_up (trim_slashes path)) by (unfold no_up; now rewrite trim_slashes_names). rewrite trim_ups_id by done. rewrite target_join; [now rewrite trim_slashes_names|done|apply trim_slashes_head].
Qed.
(** So does one that starts with any number of [../]; they are ignored. *)
Theorem C55_leading_ups_inside (base rest : text) (n : nat) : no_up rest -> (forall c r, rest = c :: r -> c <> slash) ->
  target (resolve base (concat (repeat (str "../") n) ++ rest)) = target base ++ names rest.
Proof.
  intros H Hs. unfold resolve. assert (E : trim_ups (trim_slashes (concat (repeat (str "../") n) ++ rest)) = rest).
  { assert (E1 : trim_slashes (concat (repeat (str "../") n) ++ rest) = concat (repeat (str "../") n) ++ rest). { destruct n as [|n]; [|done]. cbn. destruct rest as [|c r]; [done|]. cbn. destruct (ascii_dec c slash) as [->|]; [now destruct (Hs slash r eq_refl)|done]. }
    rewrite E1. clear E1. induction n as [|n IH]; [now apply trim_ups_id|]. exact IH. }
  rewrite E. now apply target_join.
Qed.
(** Other paths leave the root, although the store means to prevent it. *)
Theorem C55_inside_refuted : exists base path, ~ inside base (target (resolve base path)) /\ target (resolve base path) = [str "etc"; str "passwd"].
Proof. exists (str "/srv/app"), (str "..//etc/passwd"). split; [|vm_compute; reflexivity]. intros [rest H]. vm_compute in H. discriminate. Qed.
Theorem C55_middle_refuted : exists base path, ~ inside base (target (resolve base path)) /\ head path = Some "a"%char.
Proof. exists (str "/srv/app"), (str "a/../../../etc/passwd"). split; [|done]. intros [rest H]. vm_compute in H. discriminate. Qed.

(** ** Reading and writing *)
(** What was written is read back. *)
Lemma put_same f p c : put f p c p = c. Proof. unfold put. now destruct (place_dec p p). Qed.
Lemma put_other f p q c : q <> p -> put f p c q = f q. Proof. intros N. unfold put. now destruct (place_dec q p). Qed.
Theorem C55_write_read (base : text) (f : store) (path contents : text) : read base (write base f path contents) path = Some contents.
Proof.
  unfold read, write. set (p := target (resolve base path)). destruct (place_dec (temp_of p) p) as [E|N]; [rewrite E; apply put_same|]. rewrite put_other, put_same by congruence. apply put_same.
Qed.
Theorem C55_append_read (base : text) (f : store) (path contents : text) : read base (append base f path contents) path = Some (default [] (read base f path) ++ contents).
Proof. unfold read, append. apply put_same. Qed.
Theorem C55_append_only (base : text) (f : store) (path contents : text) (q : list text) : q <> target (resolve base path) -> append base f path contents q = f q.
Proof. intros N. unfold append. now apply put_other. Qed.
(** Nothing else changes but the temporary file. *)
Theorem C55_write_only_partial (base : text) (f : store) (path contents : text) (q : list text) : q <> target (resolve base path) -> q <> temp_of (target (resolve base path)) -> write base f path contents q = f q.
Proof. intros N1 N2. unfold write. destruct (place_dec _ _); [now rewrite put_other|]. now rewrite !put_other. Qed.
(** No temporary file stays behind. *)
Theorem C55_temp_gone (base : text) (f : store) (path contents : text) : temp_of (target (resolve base path)) <> target (resolve base path) -> write base f path contents (temp_of (target (resolve base path))) = None.
Proof. intros N. unfold write. destruct (place_dec _ _); [done|]. apply put_same. Qed.
(** A file of that name, though, is destroyed: its name is that of another file of the store. *)
Theorem C55_write_only_refuted : exists base f path contents other, target (resolve base other) <> target (resolve base path) /\ read base (write base f other contents) other = Some contents /\ read base (write base (write base f other contents) path contents) other = None.
Proof. exists (str "/srv"), (fun _ => None), (str "notes.json"), (str "x"), (str "notes.tmp"). split; [vm_compute; discriminate|]. split; vm_compute; reflexivity. Qed.

Example ex_C55_plain : no_up (str "/data//log.d/./a..b") /\ target (resolve (str "/srv/app") (str "/data//log.d/./a..b")) = map str ["srv"; "app"; "data"; "log.d"; "a..b"]%string.
Proof. split; [|vm_compute; reflexivity]. intros H. vm_compute in H. repeat (destruct H as [H|H]; [discriminate|]). done. Qed.
Example ex_C55_ups : target (resolve (str "/srv/app") (str "../../etc/passwd")) = map str ["srv"; "app"; "etc"; "passwd"]%string. Proof. vm_compute. reflexivity. Qed.
Example ex_C55_temp : temp_of (map str ["srv"; "a.b.json"]%string) = map str ["srv"; "a.b.tmp"]%string /\ temp_of [str ".env"] = [str ".env.tmp"] /\ temp_of [str "log"] = [str "log.tmp"]. Proof. vm_compute. done. Qed.
