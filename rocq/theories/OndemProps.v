(** C16: the ordered farm with on-demand scheduling restores the input order. *)
From Coq Require Import List Arith Bool Lia.
From Verif Require Import Base OndemModel OndemProofs.
Import ListNotations.

(** Order, for both collectors.  Full statement: for every execution and any number of runs.  It holds
    as long as fewer than [M] tasks are in flight when a task is sent ([gstep]) and, for the collector
    used when farms are combined, within one run. *)
Theorem ondem_in_order_partial :
  forall (V : Type) (M : nat) (f : V -> V) (wrapper : bool) (m : nat -> nat * V) (l : list (act V)) (s : ost V),
  0 < M -> (wrapper = true -> ~ In NewRun l) ->
  exec (gstep M f wrapper) (init m) l = Some s -> prefix (out s) (map f (sent s)).
Proof. intros. eapply out_prefix. eapply exec_oinv; eauto. Qed.

(** Nothing is lost: when the workers are idle and their output queues are empty, and the collector has
    nothing it could send, every task sent has come out. *)
Theorem ondem_complete_partial :
  forall (V : Type) (M : nat) (f : V -> V) (wrapper : bool) (m : nat -> nat * V) (l : list (act V)) (s : ost V),
  0 < M -> (wrapper = true -> ~ In NewRun l) ->
  exec (gstep M f wrapper) (init m) l = Some s ->
  todo s = [] -> doneq s = [] -> step M f wrapper s Drain = None -> out s = map f (sent s).
Proof.
  intros V M f w m l s HM R E T D Z. assert (I := exec_oinv M f HM w l m s R E).
  eapply all_out; eauto. destruct w; [|exact Z]. eapply wrapper_settled; eauto.
Qed.

(** An item is held back only while a predecessor is still with the workers or on its way. *)
Theorem ondem_holds_back_partial :
  forall (V : Type) (M : nat) (f : V -> V) (wrapper : bool) (m : nat -> nat * V) (l : list (act V)) (s : ost V),
  0 < M -> (wrapper = true -> ~ In NewRun l) ->
  exec (gstep M f wrapper) (init m) l = Some s ->
  step M f wrapper s Drain = None -> heap s <> [] ->
  length (out s) < length (sent s) /\
  exists p, In p (todo s ++ doneq s) /\ fst (mem s p) = length (out s).
Proof.
  intros V M f w m l s HM R E Z H. assert (I := exec_oinv M f HM w l m s R E).
  assert (S : settled s) by (destruct w; [eapply wrapper_settled; eauto|exact Z]).
  destruct (held_back M f HM s I S H) as [A B]. split; auto. eexists. split; [exact A|].
  assert (L : length (out s) = gcnt s).
  { rewrite (i_out M f s I), map_length, firstn_length, <- (i_cnt M f s I). pose proof (i_le M f s I). lia. }
  rewrite L in *. destruct (i_mem M f s I (gcnt s)) as [K _]; auto. rewrite (i_cnt M f s I). lia.
Qed.

(** Three tasks completed in the order 2, 0, 1; then a second run. *)
Example ondem_case :
  option_map (fun s => (out s, heap s)) (exec (gstep 4 (fun x => x + 100) false) (init (fun _ => (0, 0)))
    [Send 1; Send 2; Send 3; Work 2; Recv 0; Work 0; Recv 0; Work 0; Recv 0; Drain; NewRun; Send 4; Send 5; Work 1; Recv 0; Work 0; Recv 0; Drain])
  = Some ([101; 102; 103; 104; 105], []).
Proof. vm_compute. reflexivity. Qed.

Example ondem_holds_back_case :
  option_map (fun s => (out s, heap s, step 4 (fun x => x + 100) true s Drain))
    (exec (gstep 4 (fun x => x + 100) true) (init (fun _ => (0, 0))) [Send 1; Send 2; Work 1; Recv 0])
  = Some ([], [1], None).
Proof. vm_compute. reflexivity. Qed.

(** Finding: nothing keeps the number of tasks in flight below the size of the ring.  The workers' output
    queues are unbounded by default (farm.hpp L452, fixedsizeOUT = FF_FIXED_SIZE = false), so with a slow
    collector the emitter wraps around and overwrites elements whose addresses are still in these queues;
    this needs no element in the reordering queue, so the check of its size (ordering_policies.hpp L117)
    does not notice it.  Here: ring of 4, five tasks, all processed by the workers in order. *)
Definition ondem_in_order_claim : Prop :=
  forall (V : Type) (M : nat) (f : V -> V) (m : nat -> nat * V) (l : list (act V)) (s : ost V),
  0 < M -> exec (step M f false) (init m) l = Some s ->
  todo s = [] -> doneq s = [] -> step M f false s Drain = None -> out s = map f (sent s).

Theorem ondem_overrun_refuted : ~ ondem_in_order_claim.
Proof.
  intros H.
  set (l := [Send 1; Work 0; Send 2; Work 0; Send 3; Work 0; Send 4; Work 0; Send 5; Work 0;
             Recv 0; Recv 0; Recv 0; Recv 0; Recv 0]).
  destruct (exec (step 4 S false) (init (fun _ => (0, 0))) l) as [s|] eqn:E; [|vm_compute in E; discriminate].
  assert (K := H nat 4 S (fun _ => (0, 0)) l s ltac:(lia) E). clear H.
  assert (X : (todo s, doneq s, out s, map S (sent s)) = ([], [], [], [2; 3; 4; 5; 6]) /\ step 4 S false s Drain = None).
  { vm_compute in E. injection E as <-. split; reflexivity. }
  destruct X as [X Y]. injection X as X1 X2 X3 X4.
  specialize (K X1 X2 Y). rewrite X3 in K. cbn in K, X4. rewrite X4 in K. discriminate.
Qed.

(** Finding: OrderedCollectorWrapper (used by combine_ofarm_farm, combine.hpp L1204) restarts its counter
    at every run (L196-L199) while the load balancer goes on counting: in a second run nothing comes out. *)
Definition ondem_wrapper_rerun_claim : Prop :=
  forall (V : Type) (M : nat) (f : V -> V) (m : nat -> nat * V) (l : list (act V)) (s : ost V),
  0 < M -> exec (gstep M f true) (init m) l = Some s ->
  todo s = [] -> doneq s = [] -> out s = map f (sent s).

Theorem ondem_wrapper_rerun_refuted : ~ ondem_wrapper_rerun_claim.
Proof.
  intros H. set (l := [Send 1; Work 0; Recv 0; NewRun; Send 2; Work 0; Recv 0]).
  destruct (exec (gstep 4 S true) (init (fun _ => (0, 0))) l) as [s|] eqn:E; [|vm_compute in E; discriminate].
  assert (K := H nat 4 S (fun _ => (0, 0)) l s ltac:(lia) E). clear H.
  assert (X : (todo s, doneq s, out s, map S (sent s)) = ([], [], [2], [2; 3])).
  { vm_compute in E. injection E as <-. reflexivity. }
  injection X as X1 X2 X3 X4. specialize (K X1 X2). rewrite X3 in K. cbn in K, X4. rewrite X4 in K. discriminate.
Qed.

Print Assumptions ondem_in_order_partial.
Print Assumptions ondem_complete_partial.
Print Assumptions ondem_holds_back_partial.
Print Assumptions ondem_overrun_refuted.
Print Assumptions ondem_wrapper_rerun_refuted.
