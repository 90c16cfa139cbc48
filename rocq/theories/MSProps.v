(** Property C11: the Michael-Scott queue. *)
From Coq Require Import List Arith Permutation Lia.
From Verif Require Import Base LinSpec MSModel.
From Verif Require LinFacts DynqProofs MSProofs.
Import ListNotations.

(** C11, in full: whatever addresses the allocator returns (as long as they are not allocated), the history
    is a linearizable history of an unbounded FIFO queue.  This is false, see [msqueue_reuse_refuted]. *)
Definition msqueue_fifo_claim : Prop := forall A d0 x0 d l (s : ms A),
  exec mstep (ms_init d0 x0 d) l = Some s -> exists q, linearizable None false (mtr s) q.

(** C11, true part: for any number of threads and every interleaving in which no node is handed out again
    while a running operation has it in its headptr or tailptr.  A pop reports "empty" only if the queue was
    empty at some moment during the call. *)
Theorem msqueue_linearizable_partial : forall A d0 x0 d l (s : ms A),
  no_early_reuse (ms_init d0 x0 d) l -> exec mstep (ms_init d0 x0 d) l = Some s ->
  exists q, linearizable None false (mtr s) q.
Proof. intros A d0 x0 d l s N H. apply MSProofs.MInv_lin. eapply MSProofs.reach; eauto. Qed.

(** The same in terms of values: nothing lost, duplicated, invented or reordered. *)
Theorem msqueue_no_loss_no_dup_partial : forall A d0 x0 d l (s : ms A),
  no_early_reuse (ms_init d0 x0 d) l -> exec mstep (ms_init d0 x0 d) l = Some s ->
  exists taken stored inflight,
    pushed (mtr s) = taken ++ stored /\ Permutation taken (returned (mtr s) ++ inflight).
Proof.
  intros A d0 x0 d l s N H. destruct (msqueue_linearizable_partial A d0 x0 d l s N H) as (q & L).
  destruct (LinFacts.linearizable_values _ _ _ _ L) as (taken & infl & P & Q). exists taken, q, infl. auto.
Qed.

(** Nodes met when following next from head. *)
Inductive on_list {A} (s : ms A) : nat -> Prop :=
| on_head : on_list s (mhead s)
| on_next : forall a b, on_list s a -> mnext s a = Some b -> on_list s b.

(** A node is freed at most once, and never while it is on the list. *)
Theorem msqueue_free_once_partial : forall A d0 x0 d l (s : ms A) t hp v,
  no_early_reuse (ms_init d0 x0 d) l -> exec mstep (ms_init d0 x0 d) l = Some s ->
  mp s t = QFree hp v ->
  alive s hp = true /\ ~ on_list s hp /\ (forall u w, u <> t -> mp s u <> QFree hp w).
Proof.
  intros A d0 x0 d l s t hp v N H P.
  destruct (MSProofs.MInv_free s t hp v (MSProofs.reach d0 x0 d l s N H) P) as (H1 & H2 & H3).
  split; auto. split; auto. intros O. apply H2. clear - O. induction O.
  - apply DynqProofs.rch_head.
  - eapply DynqProofs.rch_next; eauto.
Qed.

(** No thread ever blocks or dereferences NULL: a running operation can always execute its next access... *)
Theorem msqueue_never_stuck_partial : forall A d0 x0 d l (s : ms A) t addr,
  no_early_reuse (ms_init d0 x0 d) l -> exec mstep (ms_init d0 x0 d) l = Some s ->
  mp s t <> MIdle -> alive s addr = false -> exists s', mstep s (MStep t addr) = Some s'.
Proof. intros A d0 x0 d l s t addr N H. apply MSProofs.MInv_enabled. eapply MSProofs.reach; eauto. Qed.

(** ... and completes, from whatever state the others have left, if it runs long enough without interference. *)
Theorem msqueue_obstruction_free_partial : forall A d0 x0 d l (s : ms A) t addr,
  no_early_reuse (ms_init d0 x0 d) l -> exec mstep (ms_init d0 x0 d) l = Some s ->
  alive s addr = false -> (forall u, hazard (mp s u) <> Some addr) ->
  exists k s', exec mstep s (repeat (MStep t addr) k) = Some s' /\ mp s' t = MIdle.
Proof. intros A d0 x0 d l s t addr N H. apply MSProofs.MInv_solo. eapply MSProofs.reach; eauto. Qed.

Definition run (t addr k : nat) : list (mact nat) := repeat (MStep t addr) k.
Definition push_ t x addr := MPush t x :: run t addr 7.
Definition pop_ t := MPop t :: run t 0 7.
Notation start := (ms_init (fun _ => 0) (fun _ => None) 0).

(** Non-vacuity: two pushes race (thread 1 finds tail lagging and helps), a pop overlaps, the freed dummy
    node 0 is used again by a later push, a pop sees the queue empty. *)
Definition demo : list (mact nat) :=
  [MPush 0 7; MPush 1 8] ++ run 0 1 6 ++ run 1 2 8 ++ [MPop 2] ++ run 2 0 4 ++ run 1 2 3 ++ run 0 1 1 ++ run 2 0 3
   ++ push_ 3 9 0 ++ pop_ 2 ++ pop_ 2 ++ [MPop 2] ++ run 2 0 4.
Example msqueue_nonvacuous :
  no_early_reuse start demo /\
  option_map (fun s => mtr s) (exec mstep start demo) =
  Some [CallPush 0 7; CallPush 1 8; LinPush 0; CallPop 2; LinPush 1; RetPush 1 true; RetPush 0 true;
        LinPop 2; RetPop 2 (Some 7); CallPush 3 9; LinPush 3; RetPush 3 true; CallPop 2; LinPop 2;
        RetPop 2 (Some 8); CallPop 2; LinPop 2; RetPop 2 (Some 9); CallPop 2; SeeEmpty 2; RetPop 2 None].
Proof.
  split; [|vm_compute; reflexivity].
  repeat (cbn - [Nat.eqb]; split;
    [intros t addr x E P; try discriminate E; injection E as <- <-; try discriminate P;
     intros [|[|[|[|u]]]]; cbn; discriminate|]). exact I.
Qed.

(** C11, finding: with single-word pointers and reuse of freed nodes the queue is not FIFO.  Thread 9 is
    suspended just before its CAS on head; meanwhile three pops free nodes 0, 1 and 2 (so more than two
    other nodes have been freed before node 0 is allocated again), node 0 is pushed again and becomes the
    head; the CAS of thread 9 succeeds, value 10 is returned twice and head points to a freed node. *)
Definition aba : list (mact nat) :=
  push_ 0 10 1 ++ push_ 0 20 2 ++ push_ 0 30 3 ++ [MPop 9] ++ run 9 0 5 ++ pop_ 8 ++ pop_ 8 ++ pop_ 8 ++
  push_ 0 40 0 ++ pop_ 8 ++ run 9 0 2.
Theorem msqueue_reuse_refuted : ~ msqueue_fifo_claim.
Proof.
  intros C.
  assert (E : option_map (fun s => (pushed (mtr s), returned (mtr s), alive s (mhead s))) (exec mstep start aba) =
              Some ([10; 20; 30; 40], [10; 20; 30; 40; 10], false)) by (vm_compute; reflexivity).
  destruct (exec mstep start aba) as [s|] eqn:X; [|discriminate]. cbn [option_map] in E. injection E as E1 E2 E3.
  destruct (C nat _ _ _ _ _ X) as (q & L).
  destruct (LinFacts.linearizable_values _ _ _ _ L) as (taken & infl & P & Q).
  rewrite E1 in P. rewrite E2 in Q. apply (f_equal (@length nat)) in P. apply Permutation_length in Q.
  rewrite app_length in P, Q. cbn in P, Q. lia.
Qed.

Print Assumptions msqueue_linearizable_partial.
Print Assumptions msqueue_no_loss_no_dup_partial.
Print Assumptions msqueue_free_once_partial.
Print Assumptions msqueue_never_stuck_partial.
Print Assumptions msqueue_obstruction_free_partial.
Print Assumptions msqueue_reuse_refuted.
