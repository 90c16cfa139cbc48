(** Property C27: the static linked list queue. *)
From Coq Require Import List Arith Lia.
From Verif Require Import Base StaticListModel.
From Verif Require StaticListProofs.
Import ListNotations.

(** The push in progress that has already stored its value, if any. *)
Definition in_flight {A} (s : st A) : list A := match pp s with PInc x => [x] | _ => [] end.
(** Capacity: one node less than allocated in the default (post-polling) variant. *)
Definition capacity (post : bool) (n : nat) : nat := if post then n - 1 else n.

(** C27.  For every interleaving of one producer and one consumer: what pop returned is a prefix
    of what push accepted, at most [capacity] values are stored, and only existing nodes are used. *)
Theorem static_list_fifo : forall (A : Type) (post : bool) (n : nat) (l : list (act A)) (s : st A),
  2 <= n -> exec (step post n) (init_st post) l = Some s ->
  prefix (pops (tr s)) (map (@Some A) (pushes (tr s) ++ in_flight s)) /\
  (cp s = CIdle -> length (pushes (tr s) ++ in_flight s) <= length (pops (tr s)) + capacity post n) /\
  (pp s = PIdle -> length (pops (tr s)) <= length (pushes (tr s))) /\
  pw s < n /\ pr s < n.
Proof.
  intros A post n l s Hn H. replace (capacity post n) with (n - (if post then 1 else 0)) by (unfold capacity; destruct post; lia).
  exact (StaticListProofs.fifo_api post n Hn l s H).
Qed.

(** pop returns false only at an instant when nothing is stored, push only when the list is full. *)
Theorem static_list_pop_fails_only_empty : forall (A : Type) post n l (s s' : st A),
  2 <= n -> exec (step post n) (init_st post) l = Some s ->
  step post n s C = Some s' -> tr s' = tr s ++ [EPopEmpty] ->
  taken s = length (pushes (tr s) ++ in_flight s).
Proof.
  intros A post n l s s' Hn H E T. change (in_flight s) with (StaticListProofs.pend s).
  rewrite <- (StaticListProofs.stored_eq post n Hn l s H).
  exact (StaticListProofs.fail_empty post n Hn l s s' H E T).
Qed.

Theorem static_list_push_fails_only_full : forall (A : Type) post n l (s s' : st A) x,
  2 <= n -> exec (step post n) (init_st post) l = Some s ->
  step post n s P = Some s' -> tr s' = tr s ++ [EPushFull x] ->
  length (pushes (tr s) ++ in_flight s) = taken s + capacity post n.
Proof.
  intros A post n l s s' x Hn H E T. change (in_flight s) with (StaticListProofs.pend s).
  rewrite <- (StaticListProofs.stored_eq post n Hn l s H).
  replace (capacity post n) with (n - (if post then 1 else 0)) by (unfold capacity; destruct post; lia).
  exact (StaticListProofs.fail_full post n Hn l s s' x H E T).
Qed.

(** Calls never wait for the other thread. *)
Theorem static_list_wait_free : forall (A : Type) post n (s : st A),
  (pp s <> PIdle -> exists s', step post n s P = Some s') /\
  (cp s <> CIdle -> exists s', step post n s C = Some s').
Proof.
  intros A post n s. destruct (StaticListProofs.wait_free post n s) as (H1 & H2 & _).
  split; intros H; [destruct (H1 H) as (s' & E & _)|destruct (H2 H) as (s' & E & _)]; eauto.
Qed.

Example static_list_nonvacuous : exists s : st nat,
  exec (step true 3) (init_st true)
    [CallPush 7; P; CallPop; P; C; P; C; CallPush 8; P; P; P; C; C; CallPush 9; P; P; P; CallPush 5; P; CallPop; C; C; C; C]
  = Some s /\ tr s = [EPush 7; EPush 8; EPop (Some 7); EPush 9; EPushFull 5; EPop (Some 8)].
Proof. eexists. split; [vm_compute; reflexivity|]. vm_compute. reflexivity. Qed.

Example static_list_failures_nonvacuous : exists s1 s2 s1' s2' : st nat,
  exec (step true 2) (init_st true) [CallPush 7; P; P; P; CallPush 8] = Some s1 /\
  step true 2 s1 P = Some s1' /\ tr s1' = tr s1 ++ [EPushFull 8] /\
  exec (step true 2) (init_st true) [CallPop] = Some s2 /\
  step true 2 s2 C = Some s2' /\ tr s2' = tr s2 ++ [EPopEmpty].
Proof. do 4 eexists. repeat (split; [vm_compute; reflexivity|]); vm_compute; reflexivity. Qed.

Print Assumptions static_list_fifo.
Print Assumptions static_list_pop_fails_only_empty.
Print Assumptions static_list_push_fails_only_full.
