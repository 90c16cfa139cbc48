(** Properties C07 and C08: the unbounded single-producer/single-consumer channel. *)
From Coq Require Import List Arith Bool ZArith Lia.
From Verif Require Import Base UBufModel UBufSpec.
From Verif Require UBufProofs.
Import ListNotations.

(** The capacity the user may rely on. *)
Definition capacity (n : nat) (fixedsize : bool) : option nat := if fixedsize then Some n else None.

(** C07/C08.  Whatever the two threads do, in whatever order their accesses interleave, and
    whichever addresses malloc returns: the observations are those of a FIFO queue; push fails
    only when a fixed capacity is reached; pop fails only if nothing was stored when it was called. *)
Theorem ubuf_fifo : forall (A : Type) n fixedsize l (s : st A), 1 <= n ->
  exec (step n fixedsize) init_st l = Some s -> exists q, fifo (capacity n fixedsize) (tr s) q.
Proof. intros A n f l s Hn E. exact (UBufProofs.main_fifo n f Hn l s E). Qed.

(** C07.  Without reset() the values popped are at every moment a prefix of the values pushed. *)
Theorem ubuf_popped_prefix_of_pushed : forall (A : Type) n fixedsize l (s : st A), 1 <= n ->
  exec (step n fixedsize) init_st l = Some s -> ~ In EReset (tr s) -> prefix (pops (tr s)) (pushes (tr s)).
Proof. intros A n f l s Hn E. exact (UBufProofs.main_prefix n f Hn l s E). Qed.

(** C07.  No access ever touches a freed segment. *)
Theorem ubuf_no_use_after_free : forall (A : Type) n fixedsize l (s : st A), 1 <= n ->
  exec (step n fixedsize) init_st l = Some s -> uaf s = false.
Proof. intros A n f l s Hn E. exact (UBufProofs.main_uaf n f Hn l s E). Qed.

(** C07.  No segment is at two places of the pool, all pooled segments are allocated, and a
    segment in the cache holds no data. *)
Theorem ubuf_segment_in_one_place : forall (A : Type) n fixedsize l (s : st A), 1 <= n ->
  exec (step n fixedsize) init_st l = Some s ->
  NoDup (inuse s ++ cache s) /\ (forall g, In g (inuse s ++ cache s) -> alive s g = true) /\
  (forall g, In g (cache s) -> cont s g = []).
Proof. intros A n f l s Hn E. exact (UBufProofs.main_places n f Hn l s E). Qed.

(** C07.  No segment leaks: the allocated segments are never more than those needed for the
    stored values plus 35 (32 cached, and the partial ones at the two ends). *)
Theorem ubuf_memory_bounded : forall (A : Type) n fixedsize l (s : st A) q, 1 <= n ->
  exec (step n fixedsize) init_st l = Some s -> fifo (capacity n fixedsize) (tr s) q ->
  exists L, NoDup L /\ (forall g, alive s g = true <-> In g L) /\ n * length L <= length q + 35 * n.
Proof. intros A n f l s q Hn E F. exact (UBufProofs.main_memory n f Hn l s q E F). Qed.

(** C08.  With no call in progress, empty() is true exactly when nothing is stored. *)
Theorem ubuf_empty_exact : forall (A : Type) n fixedsize l (s : st A) q, 1 <= n ->
  exec (step n fixedsize) init_st l = Some s -> fifo (capacity n fixedsize) (tr s) q ->
  pp s = PIdle -> cp s = CIdle -> (empty s = true <-> q = []).
Proof. intros A n f l s q Hn E F. exact (UBufProofs.main_empty n f Hn l s q E F). Qed.

(** C08.  push and pop are wait-free: a call that has begun can always take its next step, and
    needs at most 7 (push) or 10 (pop) own steps, whatever the other thread does. *)
Theorem ubuf_push_wait_free : forall (A : Type) n fixedsize (s : st A) m, pp s <> PIdle -> alive s m = false ->
  pleft s <= 7 /\ exists s', step n fixedsize s (P m) = Some s' /\ pleft s' < pleft s.
Proof.
  intros A n f s m N AM. split; [unfold pleft; destruct (pp s); lia|]. exact (UBufProofs.push_progress n f s m N AM).
Qed.
Theorem ubuf_pop_wait_free : forall (A : Type) n fixedsize (s : st A), cp s <> CIdle ->
  cleft s <= 10 /\ exists s', step n fixedsize s C = Some s' /\ cleft s' < cleft s.
Proof.
  intros A n f s N. split; [unfold cleft; destruct (cp s); lia|]. exact (UBufProofs.pop_progress n f s N).
Qed.

(** C08.  If calls never overlapped and reset() was never used, length() is the number of
    stored values.  Missing for the full claim: histories with reset() or with overlapping calls,
    for which it is false, see below. *)
Theorem ubuf_length_partial : forall (A : Type) n fixedsize l (s : st A) q, 1 <= n ->
  exec (seqstep n fixedsize) init_st l = Some s -> fifo (capacity n fixedsize) (tr s) q ->
  pp s = PIdle -> cp s = CIdle -> length_ n s = Z.of_nat (length q).
Proof. intros A n f l s q Hn E F. exact (UBufProofs.main_length n f Hn l s q E F). Qed.

(** The full claim. *)
Definition ubuf_length_claim : Prop := forall (A : Type) n fixedsize l (s : st A) q, 1 <= n ->
  exec (step n fixedsize) init_st l = Some s -> fifo (capacity n fixedsize) (tr s) q ->
  pp s = PIdle -> cp s = CIdle -> length_ n s = Z.of_nat (length q).

(** A push that finds room; a push that needs a new segment; a pop from the same segment; a pop
    that moves to the next one. *)
Definition push_room (x : nat) : list (act nat) := [CallPush x; P 0; P 0].
Definition push_new (x m : nat) : list (act nat) := CallPush x :: repeat (P m) 7.
Definition pop_here : list (act nat) := [CallPop; C; C].
Definition pop_next : list (act nat) := CallPop :: repeat C 10.

(** reset() puts the segments back but not the counter of segments in use: with one-slot
    segments, push, push, reset, push, push leaves two stored values and length() = 3. *)
Definition reset_run : list (act nat) := push_room 1 ++ push_new 2 1 ++ [Reset] ++ push_room 3 ++ push_new 4 1.
Theorem ubuf_length_after_reset_refuted :
  (exists s, exec (step 1 false) init_st reset_run = Some s /\ pp s = PIdle /\ cp s = CIdle /\
     tr s = [EPush 1; EPush 2; EReset; EPush 3; EPush 4] /\ length_ 1 s = 3%Z) /\ ~ ubuf_length_claim.
Proof.
  split.
  - destruct (exec (step 1 false) init_st reset_run) as [s|] eqn:E; [|vm_compute in E; discriminate].
    exists s. vm_compute in E. injection E as <-. vm_compute. auto 10.
  - intros H. destruct (exec (step 1 false) init_st reset_run) as [s|] eqn:E; [|vm_compute in E; discriminate].
    specialize (H nat 1 false reset_run s [3; 4] (le_n 1) E). vm_compute in E. injection E as <-.
    assert (3 = 2)%Z; [|discriminate]. apply H; auto. exists false. vm_compute. auto.
Qed.

(** The counter is updated by both threads without synchronisation: after a push and a pop whose
    updates overlapped, with all calls returned, two values are stored and length() = 1. *)
Definition race_run : list (act nat) :=
  push_room 1 ++ push_new 2 1 ++ pop_here ++
  [CallPop; C; C; C; C; C; C; C] ++                     (* the pop has read the counter *)
  push_new 3 2 ++ [C; C; C] ++ push_new 4 3.
Theorem ubuf_length_after_race_refuted :
  (exists s, exec (step 1 false) init_st race_run = Some s /\ pp s = PIdle /\ cp s = CIdle /\
     tr s = [EPush 1; EPush 2; ECallPop; EPop 1; ECallPop; EPush 3; EPop 2; EPush 4] /\ length_ 1 s = 1%Z) /\ ~ ubuf_length_claim.
Proof.
  split.
  - destruct (exec (step 1 false) init_st race_run) as [s|] eqn:E; [|vm_compute in E; discriminate].
    exists s. vm_compute in E. injection E as <-. vm_compute. auto 10.
  - intros H. destruct (exec (step 1 false) init_st race_run) as [s|] eqn:E; [|vm_compute in E; discriminate].
    specialize (H nat 1 false race_run s [3; 4] (le_n 1) E). vm_compute in E. injection E as <-.
    assert (1 = 2)%Z; [|discriminate]. apply H; auto. exists false. vm_compute.
    repeat (try (eexists; split; [reflexivity|])). auto.
Qed.

(** Non-vacuity: two-slot segments, a pop overlapping the push that links a second segment. *)
Definition demo_run : list (act nat) :=
  push_room 1 ++ push_room 2 ++ [CallPop] ++ push_new 3 5 ++ [C; C] ++ pop_here ++ pop_next ++ [CallPop; C; C].
Example ubuf_nonvacuous : exists s, exec (step 2 false) init_st demo_run = Some s /\
  tr s = [EPush 1; EPush 2; ECallPop; EPush 3; EPop 1; ECallPop; EPop 2; ECallPop; EPop 3; ECallPop; EPopEmpty] /\
  cache s = [0] /\ bufr s = 5 /\ fifo (capacity 2 false) (tr s) [] /\ ~ In EReset (tr s).
Proof.
  destruct (exec (step 2 false) init_st demo_run) as [s|] eqn:E; [|vm_compute in E; discriminate].
  exists s. vm_compute in E. injection E as <-. split; [reflexivity|]. cbn [tr cache bufr]. repeat (split; [reflexivity|]).
  split; [|cbn [In]; intuition discriminate]. exists true. vm_compute. repeat (try (eexists; split; [reflexivity|])). auto.
Qed.
Example ubuf_fixed_nonvacuous : exists s, exec (step 1 true) init_st (push_room 1 ++ [CallPush 2; P 0] ++ pop_here) = Some s /\
  tr s = [EPush 1; EPushFull 2; ECallPop; EPop 1].
Proof. eexists. split; vm_compute; reflexivity. Qed.
Example ubuf_length_partial_nonvacuous : exists s,
  exec (seqstep 1 false) init_st (push_room 1 ++ push_new 2 1 ++ push_new 3 2 ++ pop_here) = Some s /\
  pp s = PIdle /\ cp s = CIdle /\ length_ 1 s = 2%Z.
Proof.
  destruct (exec (seqstep 1 false) init_st (push_room 1 ++ push_new 2 1 ++ push_new 3 2 ++ pop_here)) as [s|] eqn:E; [|vm_compute in E; discriminate].
  exists s. vm_compute in E. injection E as <-. vm_compute. auto.
Qed.
Example ubuf_wait_free_nonvacuous : exists s : st nat,
  exec (step 1 false) init_st [CallPush 4; CallPop] = Some s /\ pp s <> PIdle /\ cp s <> CIdle /\ alive s 1 = false.
Proof. eexists. split; [vm_compute; reflexivity|]. cbn. repeat split; discriminate. Qed.

Print Assumptions ubuf_fifo.
Print Assumptions ubuf_popped_prefix_of_pushed.
Print Assumptions ubuf_no_use_after_free.
Print Assumptions ubuf_segment_in_one_place.
Print Assumptions ubuf_memory_bounded.
Print Assumptions ubuf_empty_exact.
Print Assumptions ubuf_push_wait_free.
Print Assumptions ubuf_pop_wait_free.
Print Assumptions ubuf_length_partial.
Print Assumptions ubuf_length_after_reset_refuted.
Print Assumptions ubuf_length_after_race_refuted.
