(** Vocabulary of the blocking-mode theorems. *)
From Coq Require Import List Arith Bool.
From Verif Require Import Base BlkModel.
Import ListNotations.

Section Spec.
  Context {X : Type}.
  Variables (W : nat) (cap : nat -> option nat) (again : bool).
  Notation st := (st X).

  (** What the consumer got from producer w, in order. *)
  Definition got_from (w : nat) (s : st) : list X := map snd (filter (fun p => fst p =? w) (out s)).

  (** Threads; a schedule gives the thread that moves at each moment. *)
  Inductive thread := Producer (w : nat) | Consumer.
  Definition fair (sched : nat -> thread) : Prop :=
    forall i t, (t = Consumer \/ exists w, w < W /\ t = Producer w) -> exists j, i <= j /\ sched j = t.

  (** One turn of a thread: a step, or the end of its timed wait if [timed]; nothing if it cannot move. *)
  Definition turn (timed : bool) (s : st) (t : thread) : st :=
    let (a, b) := match t with Producer w => (PStep w, PTime w) | Consumer => (CStep, CTime) end in
    match step W cap again s a with
    | Some s' => s'
    | None => if timed then match step W cap again s b with Some s' => s' | None => s end else s
    end.
  (** The state after n turns. *)
  Fixpoint run (timed : bool) (sched : nat -> thread) (n : nat) (s : st) : st :=
    match n with 0 => s | S m => turn timed (run timed sched m s) (sched m) end.
End Spec.
