(** The scheduling policies on concrete programs. *)
From Coq Require Import NArith List Lia.
From stdpp Require Import list gmap.
From Verif Require Import SchedModel SchedPolicy SchedEx.
Open Scope nat_scope.
(** Three tasks; a script's priority is its number. *)
Definition yp := scripted [ [say Yield; say Yield; say Yield]; [say Yield; say Yield]; [say Yield; say Yield; say (Abort 1)] ].
Definition ysetup : list (call bod) := [CSpawn (0, 0) true; CSpawn (2, 0) false; CSpawn (1, 0) false].
Definition ystart pol : core bod * chooser := fst (result yp (Config pol 1) seed ysetup).
Definition order pol n : option (list nat) := option_map (fun r => map etid (snd r)) (exec yp (Config pol 1) (ystart pol) (polls n)).
Example C57_order_ex : order Fifo 6 = Some [0; 1; 2; 0; 1; 2] /\ order Lifo 4 = Some [2; 2; 2; 1] /\ order Priority 4 = Some [1; 1; 1; 1].
Proof. split; [go|]. split; go. Qed.
Example C57_priority_ex : ready (fst (ystart Priority)) = [0; 1; 2] /\ prio_of (fst (ystart Priority)) 0 = 0%N /\ prio_of (fst (ystart Priority)) 1 = 2%N /\ prio_of (fst (ystart Priority)) 2 = 1%N.
Proof. split; [go|]. split; [go|]. split; go. Qed.
Example C57_no_starvation_ex : ready (fst (ystart Fifo)) !! 2 = Some 2 /\ exists s' c' es, exec yp (Config Fifo 1) (ystart Fifo) (polls 5) = Some (s', c', es) /\ (exists j e, j <= 2 /\ es !! j = Some e /\ (etid e = 2 \/ estep e = Abort 2)).
Proof.
  split; [go|]. assert (H : option_map (fun r => length (snd r)) (exec yp (Config Fifo 1) (ystart Fifo) (polls 5)) = Some 5) by go. destruct (exec yp (Config Fifo 1) (ystart Fifo) (polls 5)) as [[[s' c'] es]|] eqn:E; [|discriminate H]. exists s', c', es. split; [reflexivity|]. cbn in H. apply (inj Some) in H.
  apply (C57_no_starvation yp (Config Fifo 1) (polls 5) (or_introl eq_refl) (fst (ystart Fifo)) (snd (ystart Fifo)) s' c' es 2 2); [go| |lia]. rewrite <- surjective_pairing. exact E.
Qed.
(** Under Lifo it is not so: task 0, ready from the start, waits as long as there is something newer. *)
Definition lp := scripted [ [say (Exit Nothing)]; repeat (say Yield) 100 ].
Definition lstart : core bod * chooser := fst (result lp (Config Lifo 1) seed [CSpawn (0, 0) true; CSpawn (1, 0) false]).
Example C57_lifo_starves : option_map (fun r => forallb (fun e => etid e =? 1) (snd r)) (exec lp (Config Lifo 1) lstart (polls 100)) = Some true.
Proof. go. Qed.
