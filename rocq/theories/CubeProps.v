(** The boundary of a boundary vanishes modulo two, and the cells are the closure of the top cells. *)
From Coq Require Import List Arith Bool Lia.
From Verif Require Import CubeModel.
Import ListNotations.

Fixpoint xsum {A} (F : A -> bool) (l : list A) : bool := match l with [] => false | x :: l => xorb (F x) (xsum F l) end.
Lemma xsum_app {A} (F : A -> bool) l k : xsum F (l ++ k) = xorb (xsum F l) (xsum F k).
Proof. induction l as [|x l IH]; cbn; [destruct (xsum F k); reflexivity|]. rewrite IH, xorb_assoc. reflexivity. Qed.
Lemma xsum_flat {A B} (F : B -> bool) (g : A -> list B) l : xsum F (flat_map g l) = xsum (fun x => xsum F (g x)) l.
Proof. induction l as [|x l IH]; cbn; [reflexivity|]. rewrite xsum_app, IH. reflexivity. Qed.
Lemma xsum_ext {A} (F G : A -> bool) l : (forall x, In x l -> F x = G x) -> xsum F l = xsum G l.
Proof. induction l as [|x l IH]; cbn; intros H; [reflexivity|]. rewrite H, IH; auto. Qed.
Lemma xsum_xor {A} (F G : A -> bool) l : xsum (fun x => xorb (F x) (G x)) l = xorb (xsum F l) (xsum G l).
Proof. induction l as [|x l IH]; cbn; [reflexivity|]. rewrite IH. destruct (F x), (G x), (xsum F l), (xsum G l); reflexivity. Qed.
Lemma pairs (a : nat -> nat -> bool) n : (forall i j, i < j -> j <= n -> a j i = a i (j - 1)) -> xsum (fun j => xsum (a j) (seq 0 n)) (seq 0 (S n)) = false.
Proof.
  induction n as [|n IH]; intros H; [reflexivity|]. rewrite (seq_S (S n) 0), xsum_app. cbn [xsum]. rewrite xorb_false_r. cbn [Nat.add].
  rewrite (xsum_ext (fun j => xsum (a j) (seq 0 (S n))) (fun j => xorb (xsum (a j) (seq 0 n)) (a j n))) by (intros j _; rewrite seq_S, xsum_app; cbn [xsum Nat.add]; rewrite xorb_false_r; reflexivity).
  rewrite xsum_xor, IH by (intros; apply H; lia). rewrite (xsum_ext (a (S n)) (fun j => a j n)) by (intros j Hj; apply in_seq in Hj; rewrite H by lia; f_equal; lia). rewrite xorb_false_l. apply xorb_nilpotent.
Qed.
Lemma raise_comm x : forall a b, raise a (raise b x) = raise b (raise a x).
Proof. induction x as [|v x IH]; intros [|a] [|b]; cbn; try reflexivity. rewrite IH. reflexivity. Qed.
Lemma remove_length l : forall i, i < length l -> length (remove_at i l) = length l - 1.
Proof. induction l as [|x l IH]; intros [|i] H; cbn in *; try lia. rewrite IH by lia. lia. Qed.
Lemma remove_comm l : forall i j, i < j -> remove_at i (remove_at j l) = remove_at (j - 1) (remove_at i l).
Proof.
  induction l as [|x l IH]; intros i [|j] H; try lia; [destruct i, j; reflexivity|]. destruct i as [|i]; cbn [remove_at]; [rewrite Nat.sub_succ, Nat.sub_0_r; reflexivity|]. rewrite IH by lia. replace (S j - 1) with (S (j - 1)) by lia. reflexivity.
Qed.
Lemma remove_before l : forall i j, i < j -> nth i (remove_at j l) 0 = nth i l 0.
Proof. induction l as [|x l IH]; intros i [|j] H; try lia; [destruct i; reflexivity|]. destruct i as [|i]; cbn; [reflexivity|]. apply IH. lia. Qed.
Lemma remove_after l : forall i j, i < j -> nth (j - 1) (remove_at i l) 0 = nth j l 0.
Proof.
  induction l as [|x l IH]; intros i [|j] H; try lia; [destruct i, (S j - 1); reflexivity|]. destruct i as [|i]; cbn [remove_at nth]; [rewrite Nat.sub_succ, Nat.sub_0_r; reflexivity|]. replace (S j - 1) with (S (j - 1)) by lia. cbn [nth]. apply IH. lia.
Qed.
Lemma boundary_dim c f : In f (boundary c) -> S (dim f) = dim c.
Proof. unfold boundary. rewrite in_flat_map. intros (i & Hi & H). apply in_seq in Hi. destruct H as [<- | [<- | []]]; unfold dim in *; cbn [dirs]; rewrite remove_length by lia; lia. Qed.
Lemma xsum_boundary F c : xsum F (boundary c) = xsum (fun i => xorb (F (Cube (corner c) (remove_at i (dirs c)))) (F (Cube (raise (nth i (dirs c) 0) (corner c)) (remove_at i (dirs c))))) (seq 0 (dim c)).
Proof. unfold boundary. rewrite xsum_flat. apply xsum_ext. intros i _. cbn. rewrite xorb_false_r. reflexivity. Qed.
(** The sum modulo two of any function of the cells over the boundary of the boundary is zero. *)
Theorem C134_boundary_squared F c : xsum F (flat_map boundary (boundary c)) = false.
Proof.
  rewrite xsum_flat, xsum_boundary. unfold dim. destruct (length (dirs c)) as [|n] eqn:L; [reflexivity|].
  set (t := fun (u v : bool) i j => F (Cube ((if v then raise (nth i (remove_at j (dirs c)) 0) else fun x => x) ((if u then raise (nth j (dirs c) 0) else fun x => x) (corner c))) (remove_at i (remove_at j (dirs c))))).
  rewrite (xsum_ext _ (fun j => xsum (fun i => xorb (xorb (t false false i j) (t false true i j)) (xorb (t true false i j) (t true true i j))) (seq 0 n))).
  - apply (pairs (fun j i => xorb (xorb (t false false i j) (t false true i j)) (xorb (t true false i j) (t true true i j)))). intros i j Lij Lj.
    assert (E : forall u v, t u v i j = t v u (j - 1) i). { intros u v. unfold t. rewrite (remove_comm (dirs c) i j Lij), (remove_before (dirs c) i j Lij), (remove_after (dirs c) i j Lij). destruct u, v; try reflexivity. rewrite raise_comm. reflexivity. }
    rewrite !E. destruct (t false false (j - 1) i), (t true false (j - 1) i), (t false true (j - 1) i), (t true true (j - 1) i); reflexivity.
  - intros j Hj. apply in_seq in Hj. rewrite !xsum_boundary. unfold dim. cbn [dirs corner]. rewrite remove_length by lia. rewrite L. replace (S n - 1) with n by lia. rewrite <- xsum_xor. apply xsum_ext. intros i _. reflexivity.
Qed.
Definition cube_dec (a b : cube) : {a = b} + {a <> b}. Proof. decide equality; apply list_eq_dec, Nat.eq_dec. Defined.
Lemma parity (e : cube) l : Nat.odd (count_occ cube_dec l e) = xsum (fun x => if cube_dec x e then true else false) l.
Proof. induction l as [|x l IH]; [reflexivity|]. cbn [count_occ xsum]. destruct (cube_dec x e); [|rewrite IH; destruct (xsum _ l); reflexivity]. rewrite Nat.odd_succ, <- Nat.negb_odd, IH. reflexivity. Qed.
(** Every cube occurs an even number of times in the boundary of the boundary. *)
Theorem C134_even c e : Nat.even (count_occ cube_dec (flat_map boundary (boundary c)) e) = true.
Proof. rewrite <- Nat.negb_odd, parity, C134_boundary_squared. reflexivity. Qed.
(** A cube of dimension k has 2k faces, of dimension k - 1. *)
Theorem C134_faces c : length (boundary c) = 2 * dim c /\ forall f, In f (boundary c) -> S (dim f) = dim c.
Proof.
  split; [|apply boundary_dim]. unfold boundary. rewrite <- (seq_length (dim c) 0) at 2. induction (seq 0 (dim c)) as [|i l IH]; [reflexivity|]. cbn [flat_map length]. rewrite app_length, IH. cbn [length]. lia.
Qed.
(** ** The closure *)
Inductive face_of : cube -> cube -> Prop := face_self c : face_of c c | face_step c d e : face_of c d -> In e (boundary d) -> face_of c e.
Lemma top_max top c : In c top -> dim c <= top_dim top.
Proof.
  unfold top_dim. assert (M : forall l a, a <= fold_left Nat.max l a /\ forall x, In x l -> x <= fold_left Nat.max l a).
  { induction l as [|y l IH]; intros a; cbn [fold_left]; [split; [lia|intros x []]|]. destruct (IH (Nat.max a y)) as [A B]. split; [lia|]. intros x [<- | H]; [lia|exact (B x H)]. }
  intros H. apply (proj2 (M (map dim top) 0)), in_map, H.
Qed.
Lemma level_spec top d k : k <= d -> forall e, In e (level top d k) -> dim e = d - k /\ exists c, In c top /\ face_of c e.
Proof.
  induction k as [|k IH]; intros Hk e He; cbn [level] in He.
  - apply filter_In in He as [He E]. apply Nat.eqb_eq in E. split; [exact E|]. exists e. split; [exact He|constructor].
  - apply in_app_iff in He as [He | He].
    + apply filter_In in He as [He E]. apply Nat.eqb_eq in E. split; [exact E|]. exists e. split; [exact He|constructor].
    + apply in_flat_map in He as (x & Hx & He). destruct (IH ltac:(lia) x Hx) as [D (c & Hc & Fc)]. apply boundary_dim in He as D2. split; [lia|]. exists c. split; [exact Hc|]. exact (face_step c x e Fc He).
Qed.
(** The cells of dimension k are exactly the iterated faces of dimension k of the given cubes. *)
Theorem C134_cells top k e : In e (cells top k) <-> dim e = k /\ exists c, In c top /\ face_of c e.
Proof.
  unfold cells. split.
  - destruct (Nat.leb_spec k (top_dim top)) as [L | L]; [|intros []]. intros H. apply level_spec in H as [D X]; [|lia]. split; [lia|exact X].
  - intros [D (c & Hc & Fc)]. pose proof (top_max top c Hc) as M. revert k D. induction Fc as [c|c x e Fc IH He]; intros k D.
    + subst k. replace (dim c <=? top_dim top) with true by (symmetry; apply Nat.leb_le, M). assert (E : In c (filter (fun x => dim x =? top_dim top - (top_dim top - dim c)) top)) by (apply filter_In; split; [exact Hc|apply Nat.eqb_eq; lia]).
      destruct (top_dim top - dim c); cbn [level]; [exact E|apply in_app_iff; left; exact E].
    + specialize (IH Hc M (S k)). apply boundary_dim in He as D2. specialize (IH ltac:(lia)). destruct (Nat.leb_spec (S k) (top_dim top)) as [L | L]; [|destruct IH]. replace (k <=? top_dim top) with true by (symmetry; apply Nat.leb_le; lia).
      replace (top_dim top - k) with (S (top_dim top - S k)) by lia. cbn [level]. apply in_app_iff. right. apply in_flat_map. exists x. split; [exact IH|exact He].
Qed.
(** Every face of a cell is a cell of the next lower dimension: the lookup of faces never fails. *)
Theorem C134_closed top k c f : In c (cells top (S k)) -> In f (boundary c) -> In f (cells top k).
Proof.
  intros Hc Hf. apply C134_cells in Hc as [D (t & Ht & F)]. apply C134_cells. apply boundary_dim in Hf as D2. split; [lia|]. exists t. split; [exact Ht|]. exact (face_step t c f F Hf).
Qed.
Example C134_example : let sq := Cube [0; 0] [0; 1] in boundary sq = [Cube [0; 0] [1]; Cube [1; 0] [1]; Cube [0; 0] [0]; Cube [0; 1] [0]] /\
  length (flat_map boundary (boundary sq)) = 8 /\ length (nodup cube_dec (cells [sq] 0)) = 4.
Proof. vm_compute. repeat split; reflexivity. Qed.
(** Raising moves exactly the chosen coordinate by one. *)
Theorem C134_raise x : forall a b, nth b (raise a x) 0 = if (a =? b) && (a <? length x) then S (nth b x 0) else nth b x 0.
Proof.
  induction x as [|v x IH]; intros a b; [destruct a; cbn [raise length]; rewrite Bool.andb_false_r; reflexivity|]. destruct a as [|a], b as [|b]; try reflexivity. cbn [raise nth length]. rewrite IH. reflexivity.
Qed.
