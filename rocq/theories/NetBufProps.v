(** Property C38 (receive buffers are large enough) and the buffer-related part of C37. *)
From Coq Require Import List ZArith Lia.
From Verif Require Import Base Outcome FrameModel FrameSpec NetBufModel NetBufSpec.
From Verif Require NetBufProofs.
Import ListNotations.
Local Open Scope Z_scope.

(** ** C38 *)
Definition recv_capacity_claim : Prop := forall T l s, exec (rstep T) rb0 l = Some s -> over s = false.

(** Wire messages of a sender with the default limits (batch size 1, 64 KB, threshold 512 KB). *)
Definition wire_of (m : msg) : list Z :=
  match send 524288 65536 1 sender0 [Push m] with Done s => concat (wire s) | Undef => [] end.
Definition pkt (n : nat) : list Z := wire_of (Msg 7 4 0 (repeat 65 n)).

(** Three messages of 100, 10 and 50 bytes received in the same slot: the buffer allocated after
    the second one is too small for the third. *)
Theorem recv_capacity_refuted : exists s,
  exec (rstep 524288) rb0 [RStart 0 (pkt 100); RHandle 0; RStart 0 (pkt 10); RHandle 0; RStart 0 (pkt 50)] = Some s /\
  over s = true.
Proof. eexists. split; [vm_compute; reflexivity|]. vm_compute. reflexivity. Qed.

Theorem recv_capacity_claim_refuted : ~ recv_capacity_claim.
Proof. intros C. destruct recv_capacity_refuted as (s & E & O). apply C in E. congruence. Qed.

(** It holds as long as the messages received in a slot never shrink, ... *)
Theorem recv_capacity_growing_partial : forall T l s, growing l -> exec (rstep T) rb0 l = Some s -> over s = false.
Proof.
  intros T l s G E. refine (NetBufProofs.no_over_growing T l rb0 s _ _ _ _ G E); auto.
  - discriminate.
  - intros i b _. apply Zle_0_nat.
Qed.

(** ... and as long as every message is a batch of several. *)
Theorem recv_capacity_batches_partial : forall T l s, no_hand_off T l -> exec (rstep T) rb0 l = Some s -> over s = false.
Proof.
  intros T l s G E. refine (NetBufProofs.no_over_batches T l rb0 s _ _ _ G E); auto. discriminate.
Qed.

Definition batch2 : list Z :=
  match send 524288 65536 2 sender0 [Push (Msg 7 4 0 [1]); Push (Msg 8 4 0 [2; 3])] with Done s => concat (wire s) | Undef => [] end.

Example recv_capacity_nonvacuous :
  (growing [RStart 0 (pkt 5); RStart 1 (pkt 9); RHandle 0; RStart 0 (pkt 5); RHandle 1; RHandle 0; RStart 0 (pkt 6)] /\
   exists s, exec (rstep 524288) rb0 [RStart 0 (pkt 5); RStart 1 (pkt 9); RHandle 0; RStart 0 (pkt 5); RHandle 1; RHandle 0; RStart 0 (pkt 6)] = Some s) /\
  (no_hand_off 524288 [RStart 0 batch2; RHandle 0; RStart 0 batch2] /\
   exists s, exec (rstep 524288) rb0 [RStart 0 batch2; RHandle 0; RStart 0 batch2] = Some s) /\
  hands_off 524288 (pkt 5) = true.
Proof.
  split; [split|split; [split|]].
  - repeat first [apply FOP_cons | apply FOP_nil | apply Forall_cons | apply Forall_nil]; try exact I; intros X; try discriminate X; vm_compute; discriminate.
  - eexists. vm_compute. reflexivity.
  - repeat constructor; vm_compute; reflexivity.
  - eexists. vm_compute. reflexivity.
  - vm_compute. reflexivity.
Qed.

(** ** C37: a buffer handed to the transport is not written before its send completes. *)
Definition send_buffer_claim : Prop := forall k l s, exec sstep (sb0 k) l = Some s -> clash s = false.

(** A message sent directly while a batch is pending overwrites the batch just sent. *)
Theorem send_buffer_claim_refuted : ~ send_buffer_claim.
Proof.
  intros C. assert (E : exists s, exec sstep (sb0 2) [SBatch false; SDirect] = Some s /\ clash s = true).
  { eexists. split; [vm_compute; reflexivity|]. vm_compute. reflexivity. }
  destruct E as (s & E & X). apply C in E. congruence.
Qed.

Theorem send_buffer_partial : forall k l s, separate (sb0 k) l -> exec sstep (sb0 k) l = Some s -> clash s = false.
Proof. intros k l s. exact (NetBufProofs.no_clash l (sb0 k) s (NetBufProofs.SInv0 k)). Qed.

Example send_buffer_nonvacuous :
  separate (sb0 1) [SBatch false; SBatch true; SComplete 0; SDirect; SComplete 0; SBatch false; SFlush] /\
  exists s, exec sstep (sb0 1) [SBatch false; SBatch true; SComplete 0; SDirect; SComplete 0; SBatch false; SFlush] = Some s.
Proof. split; [vm_compute; intuition discriminate | eexists; vm_compute; reflexivity]. Qed.

(** ** C37 with two outstanding receives per connection. *)
Definition two_receives_claim : Prop := forall T bytes limit l acts snd s,
  1 <= T -> bytes <= T + 1 -> (1 <= limit)%nat /\ Z.of_nat limit < 2 ^ 31 -> Forall valid (pushed l) ->
  send T bytes limit sender0 (l ++ [Flush]) = Done snd ->
  exec (qstep T) (Q2 (wire snd) [] [] false) acts = Some s ->
  bad s = false /\ prefix (out s) (map deliver (pushed l)).

(** The second receive may take the separate payload of a message above the threshold: the
    receiver then reads the next message as that payload. *)
Theorem two_receives_claim_refuted : ~ two_receives_claim.
Proof.
  intros C.
  assert (E : exists snd s, send 4 5 1 sender0 ([Push (Msg 7 4 0 [1;2;3;4;5;6]); Push (Msg 8 4 0 [9])] ++ [Flush]) = Done snd /\
     exec (qstep 4) (Q2 (wire snd) [] [] false) [Post; Post; Process] = Some s /\ bad s = true).
  { eexists. eexists. split; [vm_compute; reflexivity|]. split; [vm_compute; reflexivity|]. vm_compute. reflexivity. }
  destruct E as (snd & s & E1 & E2 & B).
  assert (X : bad s = false /\ prefix (out s) (map deliver (pushed [Push (Msg 7 4 0 [1;2;3;4;5;6]); Push (Msg 8 4 0 [9])]))); [|destruct X; congruence].
  apply (C 4 5 1%nat _ [Post; Post; Process] snd s); auto; try lia.
  repeat constructor; simpl; try lia; try discriminate.
Qed.

(** With no payload above the threshold, every schedule of the receives delivers what was
    pushed, in order. *)
Theorem two_receives_partial : forall T bytes limit l acts,
  1 <= T -> bytes <= T + 1 -> (1 <= limit)%nat /\ Z.of_nat limit < 2 ^ 31 -> Forall valid (pushed l) ->
  Forall (fun m => Z.of_nat (length (m_data m)) <= T) (pushed l) ->
  exists snd, send T bytes limit sender0 (l ++ [Flush]) = Done snd /\
  forall s, exec (qstep T) (Q2 (wire snd) [] [] false) acts = Some s ->
    bad s = false /\ prefix (out s) (map deliver (pushed l)) /\
    (queue s = [] -> posted s = [] -> out s = map deliver (pushed l)).
Proof. exact NetBufProofs.end_to_end. Qed.

Example two_receives_nonvacuous :
  let l := [Push (Msg 7 4 0 [1;2;3]); Push (Msg 8 4 0 [9]); Push (Msg 8 4 0 []); Push (Msg 5 4 0 [1;1;1;1])] in
  exists snd s, send 4 5 2 sender0 (l ++ [Flush]) = Done snd /\
    exec (qstep 4) (Q2 (wire snd) [] [] false) [Post; Post; Process; Post; Process; Process] = Some s /\
    queue s = [] /\ posted s = [] /\ length (out s) = 4%nat.
Proof.
  eexists. eexists. split; [vm_compute; reflexivity|]. split; [vm_compute; reflexivity|].
  split; [|split]; vm_compute; reflexivity.
Qed.

Print Assumptions recv_capacity_claim_refuted.
Print Assumptions recv_capacity_growing_partial.
Print Assumptions recv_capacity_batches_partial.
Print Assumptions send_buffer_claim_refuted.
Print Assumptions send_buffer_partial.
Print Assumptions two_receives_claim_refuted.
Print Assumptions two_receives_partial.
