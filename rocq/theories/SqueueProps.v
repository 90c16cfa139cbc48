(** Property C26: squeue. *)
From Coq Require Import ZArith List Lia.
From Verif Require Import Outcome SqueueModel SqueueSpec.
From Verif Require SqueueProofs.
Import ListNotations.
Local Open Scope Z_scope.

(** C26 as stated: every legal history behaves as on a sequence, without undefined behaviour. *)
Definition squeue_claim : Prop := forall (T : Type) (c : Z) (l : list (op T)), 1 <= c ->
  allowed spec_step legal [] l ->
  exists s', orun (step c) mk l = Done (s', snd (srun spec_step [] l)).

(** It holds for histories without [at] in which pop_front never removes the only element. *)
Theorem squeue_partial : forall (T : Type) (c : Z) (l : list (op T)), 1 <= c ->
  allowed spec_step (fun q o => legal q o /\
    match o with PopFront => length q <> 1%nat | At _ => False | _ => True end) [] l ->
  exists s', orun (step c) mk l = Done (s', snd (srun spec_step [] l)).
Proof. intros T c l Hc. exact (SqueueProofs.squeue_refines c Hc l). Qed.

(** It holds without restriction as long as no more than [c] (chunk size) values are pushed. *)
Theorem squeue_one_chunk_partial : forall (T : Type) (c : Z) (l : list (op T)), 1 <= c ->
  allowed spec_step legal [] l ->
  Z.of_nat (length (filter (fun o => match o with PushBack _ => true | _ => false end) l)) <= c ->
  exists s', orun (step c) mk l = Done (s', snd (srun spec_step [] l)).
Proof. intros T c l Hc. exact (SqueueProofs.squeue_one_chunk c Hc l). Qed.

(** Used as a FIFO: emptying a full chunk with pop_front and pushing again makes front() read
    past the end of the old chunk. *)
Theorem squeue_fifo_refuted :
  allowed spec_step legal [] [PushBack 1; PushBack 2; PopFront; PopFront; PushBack 3; Front] /\
  orun (step 2) mk [PushBack 1; PushBack 2; PopFront; PopFront; PushBack 3; Front] = Undef.
Proof. split; [|vm_compute; reflexivity]. simpl. repeat split; discriminate. Qed.

(** [at] reads past the end of the first chunk when the queue spans several chunks. *)
Theorem squeue_at_refuted :
  allowed spec_step legal [] [PushBack 1; PushBack 2; PushBack 3; At 2] /\
  orun (step 2) mk [PushBack 1; PushBack 2; PushBack 3; At 2] = Undef.
Proof. split; [|vm_compute; reflexivity]. simpl. repeat split; lia. Qed.

Theorem squeue_claim_refuted : ~ squeue_claim.
Proof.
  intros C. destruct squeue_fifo_refuted as [A E].
  destruct (C Z 2 _ ltac:(lia) A) as [s' E']. rewrite E in E'. discriminate.
Qed.

Example squeue_nonvacuous :
  allowed spec_step (fun q o => legal q o /\
    match o with PopFront => length q <> 1%nat | At _ => False | _ => True end) []
    [PushBack 1; PushBack 2; PushBack 3; PopFront; PopFront; Front; PopBack; PushBack 4; PushBack 5; PopFront; Back; Size] /\
  exists s, orun (step 2) mk
    [PushBack 1; PushBack 2; PushBack 3; PopFront; PopFront; Front; PopBack; PushBack 4; PushBack 5; PopFront; Back; Size]
    = Done (s, [RUnit; RUnit; RUnit; RUnit; RUnit; RVal 3; RUnit; RUnit; RUnit; RUnit; RVal 5; RSize 1]).
Proof. split; [simpl; repeat split; discriminate|]. eexists. vm_compute. reflexivity. Qed.

Print Assumptions squeue_partial.
Print Assumptions squeue_one_chunk_partial.
Print Assumptions squeue_claim_refuted.
