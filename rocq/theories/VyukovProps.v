(** Property C10: the bounded MPMC queue. *)
From Coq Require Import List Arith Lia Permutation.
From Verif Require Import Base LinSpec VyukovModel.
From Verif Require LinFacts VyukovProofs.
Import ListNotations.

(** C10.  For any number of threads and every interleaving of their memory accesses, the
    history is a linearizable history of a FIFO queue of capacity n (failures: see below), and
    at most n values are stored. *)
Theorem mpmc_linearizable : forall (A : Type) (n : nat) (l : list (act A)) (s : st A),
  2 <= n -> exec (step n) init_st l = Some s ->
  exists q, linearizable (Some n) true (tr s) q /\ length q <= n.
Proof. intros A n l s Hn. exact (VyukovProofs.vyukov_lin n Hn l s). Qed.

(** C10, in terms of values only: what was pushed is what was taken, in FIFO order, followed by
    what is stored; what was taken is what pops returned plus what is held by pops that have
    not returned yet.  So no value is lost, duplicated or invented. *)
Theorem mpmc_no_loss_no_dup : forall (A : Type) (n : nat) (l : list (act A)) (s : st A),
  2 <= n -> exec (step n) init_st l = Some s ->
  exists taken stored inflight,
    pushed (tr s) = taken ++ stored /\ length stored <= n /\
    Permutation taken (returned (tr s) ++ inflight).
Proof.
  intros A n l s Hn H. destruct (mpmc_linearizable A n l s Hn H) as (q & L & B).
  destruct (LinFacts.linearizable_values _ _ _ _ L) as (taken & infl & P & Q).
  exists taken, q, infl. auto.
Qed.

(** C10: no thread ever blocks; it can always execute its next access. *)
Theorem mpmc_never_blocks : forall (A : Type) (n : nat) (s : st A) t ok,
  thr s t <> Rest -> exists s', step n s (Run t ok) = Some s'.
Proof. intros A n s t ok. exact (VyukovProofs.vyukov_step_enabled n s t ok). Qed.

Definition go (t k : nat) : list (act nat) := repeat (Run t true) k.

(** Non-vacuity: three threads, two pushes racing for the same slot (thread 1 loses its CAS and
    retries), a pop overlapping the second push. *)
Example mpmc_nonvacuous : exists s,
  exec (step 2) init_st
    ([DoPush 0 7; DoPush 1 8] ++ go 0 2 ++ go 1 2 ++ go 0 3 ++ go 1 1 ++ [DoPop 2] ++ go 2 3 ++
     go 1 3 ++ go 2 2 ++ go 1 2) = Some s /\
  tr s = [CallPush 0 7; CallPush 1 8; LinPush 0; RetPush 0 true; CallPop 2; LinPop 2; LinPush 1;
          RetPop 2 (Some 7); RetPush 1 true].
Proof. eexists. split; vm_compute; reflexivity. Qed.

(** With strict failures (pop may fail only on an empty queue) the history below is not
    linearizable: thread 1 has completed push(8), nobody pops, and still pop returns false
    because thread 0 has claimed an earlier slot and not yet filled it. *)
Theorem mpmc_strict_pop_refuted : exists (l : list (act nat)) s,
  exec (step 4) init_st l = Some s /\
  tr s = [CallPush 0 7; LinPush 0; CallPush 1 8; LinPush 1; RetPush 1 true; CallPop 2; RetPop 2 None].
Proof.
  exists ([DoPush 0 7] ++ go 0 3 ++ [DoPush 1 8] ++ go 1 5 ++ [DoPop 2] ++ go 2 2).
  eexists. split; vm_compute; reflexivity.
Qed.

(** Likewise push can report "full" with no value stored: one stalled pop keeps its slot. *)
Theorem mpmc_strict_push_refuted : exists (l : list (act nat)) s,
  exec (step 2) init_st l = Some s /\
  tr s = [CallPush 0 7; LinPush 0; RetPush 0 true; CallPush 0 8; LinPush 0; RetPush 0 true;
          CallPop 1; LinPop 1; CallPop 2; LinPop 2; RetPop 2 (Some 8);
          CallPush 0 9; RetPush 0 false] /\ pwrite s = pread s.
Proof.
  exists ([DoPush 0 7] ++ go 0 5 ++ [DoPush 0 8] ++ go 0 5 ++ [DoPop 1] ++ go 1 3 ++ [DoPop 2] ++ go 2 5
          ++ [DoPush 0 9] ++ go 0 2).
  eexists. split; [|split]; vm_compute; reflexivity.
Qed.

Print Assumptions mpmc_linearizable.
Print Assumptions mpmc_no_loss_no_dup.
Print Assumptions mpmc_never_blocks.
Print Assumptions mpmc_strict_pop_refuted.
