(** Property C18: a pipeline is the composition of its stages on streams. *)
From Coq Require Import List Arith Lia.
From Verif Require Import Base PipeModel PipeSpec.
From Verif Require PipeProofs.
Import ListNotations.

(** A channel capacity that is not zero. *)
Definition usable (c : option nat) : Prop := match c with Some m => 1 <= m | None => True end.

(** C18, safety.  For any stages (stateful, filtering, emitting several values, stopping early
    with end-of-stream), any input, any capacities and any schedule: what left the pipeline so
    far is a prefix of the composition of the stage functions on the input, followed by exactly
    one end-of-stream. *)
Theorem pipeline_output_prefix : forall (A St : Type) (ns : list (node A St * St * option nat)) (input : list A) acts s,
  Forall (fun '(nd, _, _) => ends_with_eos nd) ns ->
  exec step (start ns (stream input)) acts = Some s ->
  prefix (out s) (stream (compose ns input)).
Proof.
  intros A St ns input acts s F E. apply (PipeProofs.main_prefix ns input acts s); auto.
  eapply Forall_impl; [|exact F]. intros [[nd s0] c] H. exact H.
Qed.

(** C18, termination: every execution is finite, whatever the nodes do. *)
Theorem pipeline_terminates : forall (A St : Type) (ns : list (node A St * St * option nat)) (input : list A),
  exists bound, forall acts s, exec step (start ns (stream input)) acts = Some s -> length acts <= bound.
Proof.
  intros A St ns input. exists (PipeProofs.work_st (start ns (stream input))). intros acts s E.
  apply PipeProofs.exec_work in E. lia.
Qed.

(** C18, no deadlock and no loss: if the stages handle all their input, with bounded or
    unbounded channels, an execution that cannot continue has produced exactly the composition,
    then end-of-stream; all threads have terminated and all channels are empty. *)
Theorem pipeline_complete_partial : forall (A St : Type) (ns : list (node A St * St * option nat)) (input : list A) acts s,
  Forall (fun '(nd, _, c) => total nd /\ usable c) ns ->
  exec step (start ns (stream input)) acts = Some s -> (forall a, step s a = None) ->
  out s = stream (compose ns input) /\ src s = [] /\
  Forall (fun c => fin c = true /\ inq c = [] /\ pend c = []) (cells s).
Proof. intros A St ns input acts s F E H. exact (PipeProofs.main_total ns input acts s F E H). Qed.

(** C18 with stages that may stop early (svc returns EOS): true with unbounded channels. *)
Theorem pipeline_complete_unbounded : forall (A St : Type) (ns : list (node A St * St * option nat)) (input : list A) acts s,
  Forall (fun '(nd, _, c) => ends_with_eos nd /\ c = None) ns ->
  exec step (start ns (stream input)) acts = Some s -> (forall a, step s a = None) ->
  out s = stream (compose ns input) /\ src s = [] /\ Forall (fun c => fin c = true /\ pend c = []) (cells s).
Proof. intros A St ns input acts s F E H. exact (PipeProofs.main_unbounded ns input acts s F E H). Qed.

(** The full claim for stages that may stop early and bounded channels... *)
Definition pipeline_no_deadlock_claim : Prop :=
  forall (A St : Type) (ns : list (node A St * St * option nat)) (input : list A) acts s,
  Forall (fun '(nd, _, c) => ends_with_eos nd /\ usable c) ns ->
  exec step (start ns (stream input)) acts = Some s -> (forall a, step s a = None) ->
  src s = [] /\ Forall (fun c => fin c = true) (cells s).

(** ... is false: a stage that returns EOS stops reading its input, so the stages before it
    block for ever in Push once the channel is full. *)
Definition ident : node nat unit := mkNode (fun s x => (s, [], RTask x)) (fun _ => []).
Definition stopper : node nat unit := mkNode (fun s _ => (s, [], REnd EOS)) (fun _ => []).
Definition dead_run : list act :=
  [SrcPush; Pop 0; Push 0; Pop 1; Push 1; SrcPush; Pop 0; Push 0; SrcPush; Pop 0; SrcPush].
Theorem pipeline_early_stop_deadlock_refuted : ~ pipeline_no_deadlock_claim.
Proof.
  intros H. destruct (exec step (start [(ident, tt, Some 1); (stopper, tt, Some 1)] (stream [1; 2; 3; 4])) dead_run) as [s|] eqn:E;
    [|vm_compute in E; discriminate].
  assert (src s = []) as X; [|vm_compute in E; injection E as <-; discriminate].
  eapply H; [|exact E|].
  - repeat constructor; cbn; auto.
  - vm_compute in E. injection E as <-. intros [|i|i]; try reflexivity; destruct i as [|[|[|i]]]; reflexivity.
Qed.

(** Non-vacuity: a stage that doubles every value, a stage that drops odd inputs, emits each
    even one twice and emits its count at the end; one-slot channels; complete run. *)
Definition dup : node nat nat := mkNode (fun s x => (s, [x], RTask x)) (fun _ => []).
Definition evens : node nat nat :=
  mkNode (fun s x => if Nat.even x then (S s, [], RTask (x + 10)) else (s, [], RGoOn)) (fun s => [s]).
Definition demo : list act :=
  [SrcPush; Pop 0; Push 0; Pop 1; Push 0; Pop 1; SrcPush; Pop 0; Push 0; Pop 1; Push 1; Push 0; Pop 1; Push 1;
   SrcPush; Pop 0; Push 0; Pop 1; Push 1; Push 1].
Example pipeline_nonvacuous : exists s : st nat nat,
  exec step (start [(dup, 0, Some 1); (evens, 0, Some 1)] (stream [3; 4])) demo = Some s /\
  out s = [Task 14; Task 14; Task 2; End EOS] /\ (forall a, step s a = None) /\
  compose [(dup, 0, Some 1); (evens, 0, Some 1)] [3; 4] = [14; 14; 2] /\
  Forall (fun '(nd, _, c) => total nd /\ usable c) [(dup, 0, Some 1); (evens, 0, Some 1)].
Proof.
  destruct (exec step (start [(dup, 0, Some 1); (evens, 0, Some 1)] (stream [3; 4])) demo) as [s|] eqn:E; [|vm_compute in E; discriminate].
  exists s. split; [auto|]. vm_compute in E. injection E as <-. split; [reflexivity|]. split.
  - intros [|i|i]; try reflexivity; destruct i as [|[|[|i]]]; reflexivity.
  - split; [reflexivity|]. repeat constructor; intros a x; cbn; auto. destruct (Nat.even x); cbn; auto.
Qed.
Example pipeline_unbounded_nonvacuous : exists s : st nat unit,
  exec step (start [(ident, tt, None); (stopper, tt, None)] (stream [1; 2]))
    [SrcPush; Pop 0; Push 0; Pop 1; Push 1; SrcPush; Pop 0; Push 0; SrcPush; Pop 0; Push 0] = Some s /\
  out s = [End EOS] /\ (forall a, step s a = None).
Proof.
  eexists. split; [vm_compute; reflexivity|]. split; [reflexivity|].
  intros [|i|i]; try reflexivity; destruct i as [|[|[|i]]]; reflexivity.
Qed.

Print Assumptions pipeline_output_prefix.
Print Assumptions pipeline_terminates.
Print Assumptions pipeline_complete_partial.
Print Assumptions pipeline_complete_unbounded.
Print Assumptions pipeline_early_stop_deadlock_refuted.
