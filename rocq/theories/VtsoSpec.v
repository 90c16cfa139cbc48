(** Specification of a concurrent FIFO queue on a machine with store buffers: the queue of
    [LinSpec] with one relaxation.  An operation that took effect stays *unseen* until its last
    store reaches memory ([Vis]), which may be after it returned.  push may report "full", and
    pop "empty", while an operation of the other kind by another thread is unseen; otherwise
    they are exact. *)
From Coq Require Import List Arith.
From Verif Require Import Base LinSpec.
Import ListNotations.

Inductive tev (A : Type) : Type :=
| Ev (e : ev A)                       (* an event of [LinSpec] *)
| Vis (t : nat).                      (* the last operation of thread t that took effect is now
                                         seen by every thread *)
Arguments Ev {A} _.
Arguments Vis {A} _.

Inductive effect := PushEff | PopEff.

Section Spec.
  Context {A : Type}.
  Variable cap : option nat.

  (** Which threads have an operation that took effect and is not seen yet. *)
  Definition unseen_after (e : ev A) (un : nat -> option effect) : nat -> option effect :=
    match e with
    | LinPush t => fupd un t (Some PushEff)
    | LinPop t => fupd un t (Some PopEff)
    | _ => un
    end.

  (** One event.  State: contents of the queue, progress of each thread's operation, and what is
      unseen.  [lin cap false] is the exact queue of [LinSpec]. *)
  Inductive tlin : list A -> (nat -> status A) -> (nat -> option effect) -> tev A ->
                   list A -> (nat -> status A) -> (nat -> option effect) -> Prop :=
  | tl_exact : forall q th un e q' th', lin cap false q th e q' th' ->
      tlin q th un (Ev e) q' th' (unseen_after e un)
  | tl_vis : forall q th un t, un t <> None ->
      tlin q th un (Vis t) q th (fupd un t None)
  | tl_fail_push : forall q th un t t' x, th t = WantPush x -> t' <> t -> un t' = Some PopEff ->
      tlin q th un (Ev (RetPush t false)) q (fupd th t Idle) un
  | tl_fail_pop : forall q th un t t', th t = WantPop -> t' <> t -> un t' = Some PushEff ->
      tlin q th un (Ev (RetPop t None)) q (fupd th t Idle) un.

  (** A history, from one state of the specification to another. *)
  Inductive tlins : list A -> (nat -> status A) -> (nat -> option effect) -> list (tev A) ->
                    list A -> (nat -> status A) -> (nat -> option effect) -> Prop :=
  | tls_nil : forall q th un, tlins q th un [] q th un
  | tls_snoc : forall q0 th0 un0 l q th un e q' th' un',
      tlins q0 th0 un0 l q th un -> tlin q th un e q' th' un' -> tlins q0 th0 un0 (l ++ [e]) q' th' un'.

  (** The trace is a history of the queue, initially empty, now holding [q]; [th] is how far each
      thread's operation has got, [un] what is unseen. *)
  Definition tso_linearizable (tr : list (tev A)) (q : list A) (th : nat -> status A)
             (un : nat -> option effect) : Prop :=
    tlins [] (fun _ => Idle) (fun _ => None) tr q th un.
End Spec.

(** The history without the [Vis] marks: what a program can observe. *)
Definition events {A : Type} (l : list (tev A)) : list (ev A) :=
  flat_map (fun e => match e with Ev x => [x] | Vis _ => [] end) l.
