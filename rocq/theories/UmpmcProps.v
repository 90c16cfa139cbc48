(** Property C46: the unbounded MPMC queue. *)
From Coq Require Import List Arith Lia Permutation.
From Verif Require Import Base LinSpec UmpmcModel.
From Verif Require LinFacts UmpmcProofs2.
Import ListNotations.

(** C46.  For any number of threads and every interleaving of their memory accesses, the
    history is a linearizable history of an unbounded FIFO queue; a pop reports "empty" only if
    the queue is empty at that moment or some push has taken effect and not yet returned. *)
Theorem umpmc_linearizable : forall (A : Type) (n : nat) (l : list (act A)) (s : st A),
  2 <= n -> exec (step n) init_st l = Some s ->
  exists q, linearizable None true (tr s) q.
Proof. intros A n l s Hn. exact (UmpmcProofs2.umpmc_lin n Hn l s). Qed.

(** C46, in terms of values only: what was pushed is what was taken, in FIFO order, followed by
    what is stored; what was taken is what pops returned plus what is held by pops that have
    not returned yet.  So no value is lost, duplicated or invented. *)
Theorem umpmc_no_loss_no_dup : forall (A : Type) (n : nat) (l : list (act A)) (s : st A),
  2 <= n -> exec (step n) init_st l = Some s ->
  exists taken stored inflight,
    pushed (tr s) = taken ++ stored /\ Permutation taken (returned (tr s) ++ inflight).
Proof.
  intros A n l s Hn H. destruct (umpmc_linearizable A n l s Hn H) as (q & L).
  destruct (LinFacts.linearizable_values _ _ _ _ L) as (taken & infl & P & Q).
  exists taken, q, infl. auto.
Qed.

(** C46: push never reports failure. *)
Theorem umpmc_push_succeeds : forall (A : Type) (n : nat) (l : list (act A)) (s : st A) t,
  2 <= n -> exec (step n) init_st l = Some s -> ~ In (RetPush t false) (tr s).
Proof. intros A n l s t Hn. exact (UmpmcProofs2.push_true n l s t). Qed.

(** C46: each sub-queue, which supports only one producer and one consumer, is never pushed to
    by two threads at a time, never popped from by two threads at a time, and never popped from
    while it is empty. *)
Theorem umpmc_one_producer : forall (A : Type) (n : nat) (l : list (act A)) (s : st A) t t' x x' k k',
  2 <= n -> exec (step n) init_st l = Some s ->
  thr s t = PPush x k -> thr s t' = PPush x' k' -> k mod n = k' mod n -> t = t'.
Proof. intros A n l s t t' x x' k k' Hn. exact (UmpmcProofs2.one_producer n Hn l s t t' x x' k k'). Qed.

Theorem umpmc_one_consumer : forall (A : Type) (n : nat) (l : list (act A)) (s : st A) t t' k k',
  2 <= n -> exec (step n) init_st l = Some s ->
  thr s t = QPop k -> thr s t' = QPop k' -> k mod n = k' mod n -> t = t'.
Proof. intros A n l s t t' k k' Hn. exact (UmpmcProofs2.one_consumer n Hn l s t t' k k'). Qed.

Theorem umpmc_subqueue_ready : forall (A : Type) (n : nat) (l : list (act A)) (s : st A) t k,
  2 <= n -> exec (step n) init_st l = Some s -> thr s t = QPop k -> buf s (k mod n) <> [].
Proof. intros A n l s t k Hn. exact (UmpmcProofs2.subqueue_ready n Hn l s t k). Qed.

(** C46: an operation running while every other thread is outside the queue ends within nine
    steps. *)
Theorem umpmc_solo_ends : forall (A : Type) (n : nat) (l : list (act A)) (s : st A) t,
  2 <= n -> exec (step n) init_st l = Some s -> (forall u, u <> t -> thr s u = Rest) ->
  exists k s', k <= 9 /\ exec (step n) s (repeat (Run t) k) = Some s' /\ thr s' t = Rest.
Proof. intros A n l s t Hn. exact (UmpmcProofs2.solo n Hn l s t). Qed.

(** C46: no deadlock.  From every reachable state the operations in progress can all end,
    without any new call. *)
Theorem umpmc_can_complete : forall (A : Type) (n : nat) (l : list (act A)) (s : st A),
  2 <= n -> exec (step n) init_st l = Some s ->
  exists l' s', exec (step n) s l' = Some s' /\ Forall (fun a => exists t, a = Run t) l' /\
    (forall t, thr s' t = Rest).
Proof. intros A n l s Hn. exact (UmpmcProofs2.can_complete n Hn l s). Qed.

(** The header calls push and pop "nonblocking": an operation that keeps running would end
    whatever the other threads do, even if they stall. *)
Definition umpmc_nonblocking_claim : Prop :=
  forall (n : nat) (l : list (act nat)) (s : st nat) t,
    2 <= n -> exec (step n) init_st l = Some s -> thr s t <> Rest ->
    exists k s', exec (step n) s (repeat (Run t) k) = Some s' /\ thr s' t = Rest.

Definition go (t k : nat) : list (act nat) := repeat (Run t) k.

(** Thread 0 stalls after taking its ticket; thread 1 pushes 8 and then its push(9) spins for
    ever, because its ticket belongs to the sub-queue thread 0 holds. *)
Theorem umpmc_nonblocking_refuted : ~ umpmc_nonblocking_claim.
Proof.
  intros H.
  destruct (exec (step 2) init_st ([DoPush 0 7] ++ go 0 3 ++ [DoPush 1 8] ++ go 1 5 ++ [DoPush 1 9])) as [s|] eqn:E;
    [|vm_compute in E; discriminate].
  assert (P : forall k s1, (thr s1 1 = PLoad 9 \/ thr s1 1 = PSeq 9 2) -> preadP s1 = 2 -> seqP s1 0 = 0 ->
    forall s', exec (step 2) s1 (repeat (Run 1) k) = Some s' -> thr s' 1 <> Rest).
  { induction k as [|k IH]; intros s1 C P Q s' X.
    - injection X as <-. destruct C as [C|C]; rewrite C; discriminate.
    - cbn [repeat exec] in X. destruct C as [C|C].
      + cbn [step] in X. rewrite C in X. revert X. apply IH; simpl; auto. rewrite P. auto.
      + cbn [step] in X. rewrite C in X. change (2 mod 2) with 0 in X. rewrite Q in X. simpl in X.
        revert X. apply IH; simpl; auto. }
  pose proof E as E'. vm_compute in E'. injection E' as E'.
  destruct (H 2 _ s 1 (le_n 2) E) as (k & s' & X & Y).
  - rewrite <- E'. simpl. discriminate.
  - revert X Y. apply P; rewrite <- E'; auto.
Qed.

(** With strict failures (pop may fail only on an empty queue) the history below is not
    linearizable: thread 1 has completed push(8), nobody pops, and still pop returns false
    because thread 0 holds an earlier ticket. *)
Theorem umpmc_strict_pop_refuted : exists (l : list (act nat)) s,
  exec (step 4) init_st l = Some s /\
  tr s = [CallPush 0 7; LinPush 0; CallPush 1 8; LinPush 1; RetPush 1 true; CallPop 2; RetPop 2 None].
Proof.
  exists ([DoPush 0 7] ++ go 0 3 ++ [DoPush 1 8] ++ go 1 5 ++ [DoPop 2] ++ go 2 3).
  eexists. split; vm_compute; reflexivity.
Qed.

(** Non-vacuity: two pushes race for one ticket (thread 1 loses its CAS and retries), a pop
    overlaps the second push, three values go round the two sub-queues. *)
Example umpmc_nonvacuous : exists s,
  exec (step 2) init_st
    ([DoPush 0 7; DoPush 1 8] ++ go 0 2 ++ go 1 2 ++ go 0 3 ++ go 1 1 ++ [DoPop 2] ++ go 2 4 ++
     go 1 3 ++ go 2 2 ++ go 1 2 ++ [DoPush 0 9] ++ go 0 5 ++ [DoPop 1] ++ go 1 6) = Some s /\
  tr s = [CallPush 0 7; CallPush 1 8; LinPush 0; RetPush 0 true; CallPop 2; LinPop 2; LinPush 1;
          RetPop 2 (Some 7); RetPush 1 true; CallPush 0 9; LinPush 0; RetPush 0 true; CallPop 1;
          LinPop 1; RetPop 1 (Some 8)].
Proof. eexists. split; vm_compute; reflexivity. Qed.

(** Non-vacuity of the exclusivity theorems: a state in which one thread pushes to and another
    pops from the same sub-queue. *)
Example umpmc_exclusive_nonvacuous : exists s,
  exec (step 2) init_st
    ([DoPush 0 7] ++ go 0 5 ++ [DoPush 0 8] ++ go 0 5 ++ [DoPush 0 9] ++ go 0 3 ++ [DoPop 1] ++ go 1 4) = Some s /\
  thr s 0 = PPush 9 2 /\ thr s 1 = QPop 0 /\ 2 mod 2 = 0 mod 2.
Proof. eexists. repeat (split; [vm_compute; reflexivity|]). reflexivity. Qed.

Print Assumptions umpmc_linearizable.
Print Assumptions umpmc_no_loss_no_dup.
Print Assumptions umpmc_push_succeeds.
Print Assumptions umpmc_one_producer.
Print Assumptions umpmc_one_consumer.
Print Assumptions umpmc_subqueue_ready.
Print Assumptions umpmc_solo_ends.
Print Assumptions umpmc_can_complete.
Print Assumptions umpmc_nonblocking_refuted.
Print Assumptions umpmc_strict_pop_refuted.
