(** C67: a queue of variable-size messages, as its users see it. *)
From Coq Require Import List Arith.
From Verif Require Import FfqModel.
Import ListNotations.

(** The messages committed, how many of them have become visible to other processors, how many have been
    dequeued. *)
Definition sent (tr : list event) : list (list (option nat)) :=
  flat_map (fun e => match e with ECommit l => [l] | _ => [] end) tr.
Definition visible (tr : list event) : nat :=
  length (flat_map (fun e => match e with EVis => [tt] | _ => [] end) tr).
Definition taken (tr : list event) : nat :=
  length (flat_map (fun e => match e with ETake => [tt] | _ => [] end) tr).

(** What may happen after [tr]. *)
Definition allowed (tr : list event) (e : event) : Prop :=
  match e with
  | EGot | ETake => taken tr < visible tr
  | EEmpty => taken tr = visible tr
  | EVis => visible tr < length (sent tr)
  | ERead i w =>
      (* the message in hand is the oldest not yet dequeued; every word the sender wrote is read back *)
      taken tr < visible tr /\
      exists l x, nth_error (sent tr) (taken tr) = Some l /\ nth_error l i = Some x /\
                  forall v, x = Some v -> w = Data v
  | ECommit _ => True
  end.
Definition fifo (tr : list event) : Prop :=
  forall tr1 e tr2, tr = tr1 ++ e :: tr2 -> allowed tr1 e.
