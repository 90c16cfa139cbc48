(** Property C09: the dynamic list queue. *)
From Coq Require Import List Arith Permutation.
From Verif Require Import Base LinSpec DynqModel.
From Verif Require LinFacts DynqProofs.
Import ListNotations.

(** Nodes on the queue's list: those met when following next from head. *)
Inductive on_list {A} (s : dq A) : nat -> Prop :=
| on_head : on_list s (head s)
| on_next : forall a b, on_list s a -> nnext s a = Some b -> on_list s b.

(** The nodes a thread's next memory access reads or writes or frees. *)
Definition touches {A} (s : dq A) (t n : nat) : Prop :=
  match dp s t with
  | PData _ m | PNext _ m | CFree _ m => n = m
  | PLink _ _ => n = tail s
  | CTest | CHead _ => n = head s
  | CRead => n = head s \/ nnext s (head s) = Some n
  | _ => False
  end.

(** The node a thread is filling for a push, or has taken off the list and not yet recycled or freed. *)
Definition holds {A} (s : dq A) (t n : nat) : Prop :=
  match dp s t with
  | PData _ m | PNext _ m | PLock _ m | PLink _ m | CCache _ m | CFree _ m | CUnlock _ (Some m) => n = m
  | _ => False
  end.

(** C09.  For any number of threads, any cache contents and every interleaving of the memory accesses, the
    history of mp_push and mp_pop is a linearizable history of an unbounded FIFO queue, and a pop reports
    "empty" only when the queue is empty.  With one producer and one consumer this is push and pop. *)
Theorem dynqueue_linearizable : forall A d0 x0 h c l (s : dq A),
  NoDup (h :: c) -> exec dstep (dq_init d0 x0 h c) l = Some s ->
  exists q, linearizable None false (tr s) q.
Proof. intros A d0 x0 h c l s ND H. apply DynqProofs.Inv_lin. eapply DynqProofs.reach; eauto. Qed.

(** C09 in terms of values: nothing lost, duplicated, invented or reordered. *)
Theorem dynqueue_no_loss_no_dup : forall A d0 x0 h c l (s : dq A),
  NoDup (h :: c) -> exec dstep (dq_init d0 x0 h c) l = Some s ->
  exists taken stored inflight,
    pushed (tr s) = taken ++ stored /\ Permutation taken (returned (tr s) ++ inflight).
Proof.
  intros A d0 x0 h c l s ND H. destruct (dynqueue_linearizable A d0 x0 h c l s ND H) as (q & L).
  destruct (LinFacts.linearizable_values _ _ _ _ L) as (taken & infl & P & Q). exists taken, q, infl. auto.
Qed.

Lemma on_list_reaches : forall A (s : dq A) n, on_list s n <-> DynqProofs.reaches (nnext s) (head s) n.
Proof.
  intros A s n. split; induction 1.
  - apply DynqProofs.rch_head. - eapply DynqProofs.rch_next; eauto.
  - apply on_head. - eapply on_next; eauto.
Qed.

Lemma holds_own : forall A (s : dq A) t n, holds s t n <-> DynqProofs.own (dp s t) = Some n.
Proof.
  intros A s t n. unfold holds. destruct (dp s t); cbn; try (split; [tauto|discriminate]);
    try (split; congruence). destruct f; [split; congruence|split; [tauto|discriminate]].
Qed.

(** C09: a node is in at most one place: on the list, in the cache, or held by one thread; and all of them
    are allocated. *)
Theorem dynqueue_node_in_one_place : forall A d0 x0 h c l (s : dq A),
  NoDup (h :: c) -> exec dstep (dq_init d0 x0 h c) l = Some s ->
  (forall n, on_list s n -> live s n = true /\ ~ In n (cache s)) /\
  NoDup (cache s) /\ (forall n, In n (cache s) -> live s n = true) /\
  (forall t n, holds s t n -> live s n = true /\ ~ In n (cache s) /\ ~ on_list s n /\
                              forall u, u <> t -> ~ holds s u n).
Proof.
  intros A d0 x0 h c l s ND H. assert (I := DynqProofs.reach d0 x0 h c l s ND H).
  destruct (DynqProofs.Inv_lists s I) as (L1 & L2 & L3).
  split; [intros n Hn; apply L1; apply on_list_reaches; auto|]. split; auto. split; auto.
  intros t n Hn. apply holds_own in Hn. destruct (DynqProofs.Inv_private s t n I Hn) as (P1 & P2 & P3 & P4).
  rewrite on_list_reaches. repeat split; auto. intros u N Hu. apply holds_own in Hu. exact (P4 u N Hu).
Qed.

(** C09: every access goes to an allocated node which is not in the cache: no use after free or recycle. *)
Theorem dynqueue_no_use_after_recycle : forall A d0 x0 h c l (s : dq A) t n,
  NoDup (h :: c) -> exec dstep (dq_init d0 x0 h c) l = Some s ->
  touches s t n -> live s n = true /\ ~ In n (cache s).
Proof.
  intros A d0 x0 h c l s t n ND H T. assert (I := DynqProofs.reach d0 x0 h c l s ND H).
  destruct (dynqueue_node_in_one_place A d0 x0 h c l s ND H) as (L1 & _ & _ & L4).
  assert (O : on_list s n \/ holds s t n).
  { unfold touches in T. unfold holds. destruct (dp s t) eqn:P; try tauto; auto; subst; auto using on_head.
    - left. apply on_list_reaches. eapply DynqProofs.Inv_tail; eauto.
    - left. destruct T as [->|T]; [apply on_head|]. eapply on_next; [apply on_head|exact T]. }
  destruct O as [O|O]; auto. destruct (L4 t n O) as (? & ? & _). auto.
Qed.

(** C09: no node is leaked: when no operation is running, the allocated nodes are exactly those on the list
    and those in the cache, which the destructor (L152-L165) frees. *)
Theorem dynqueue_no_leak : forall A d0 x0 h c l (s : dq A),
  NoDup (h :: c) -> exec dstep (dq_init d0 x0 h c) l = Some s -> (forall t, dp s t = DIdle) ->
  forall n, live s n = true <-> (on_list s n \/ In n (cache s)).
Proof.
  intros A d0 x0 h c l s ND H Q n. assert (I := DynqProofs.reach d0 x0 h c l s ND H).
  rewrite on_list_reaches. exact (DynqProofs.Inv_all s I Q n).
Qed.

(** C09: unless memory is exhausted the queue never gets stuck: while an operation is running some thread
    can take a step (in particular head->next is never null where it is dereferenced). *)
Theorem dynqueue_progress : forall A d0 x0 h c l (s : dq A) t,
  NoDup (h :: c) -> exec dstep (dq_init d0 x0 h c) l = Some s ->
  dp s t <> DIdle -> (exists a, live s a = false) ->
  exists u hit addr s', dstep s (DStep u hit addr) = Some s'.
Proof.
  intros A d0 x0 h c l s t ND H. apply DynqProofs.Inv_progress. exact (DynqProofs.reach d0 x0 h c l s ND H).
Qed.

(** Non-vacuity: two producers and one consumer; the pop takes 7 while the second producer is between its
    two writes (tail still points to the recycled node); the recycled node is used again by the next push,
    and the second recycled node does not fit in the cache and is freed. *)
Definition st (t k : nat) : list (dact nat) := repeat (DStep t true 9) k.
Example dynqueue_nonvacuous :
  option_map (fun s => (tr s, cache s, head s, map (live s) [1; 2; 3; 9]))
    (exec dstep (dq_init (fun _ => 0) (fun _ => None) 1 [2])
      ([DPush 0 7] ++ st 0 5 ++ [DPop 2] ++ st 2 5 ++ st 0 2 ++ [DPush 1 8] ++ st 2 1 ++ st 1 7 ++ [DPop 2] ++ st 2 4
        ++ [DStep 2 false 0] ++ st 2 2)) =
  Some ([CallPush 0 7; LinPush 0; CallPop 2; LinPop 2; RetPush 0 true; CallPush 1 8; RetPop 2 (Some 7);
         LinPush 1; RetPush 1 true; CallPop 2; LinPop 2; RetPop 2 (Some 8)], [], 1, [true; false; false; false]).
Proof. vm_compute. reflexivity. Qed.

Print Assumptions dynqueue_linearizable.
Print Assumptions dynqueue_no_loss_no_dup.
Print Assumptions dynqueue_node_in_one_place.
Print Assumptions dynqueue_no_use_after_recycle.
Print Assumptions dynqueue_no_leak.
Print Assumptions dynqueue_progress.
