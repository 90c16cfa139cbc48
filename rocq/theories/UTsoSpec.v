(** What the two users of the unbounded channel may observe on a TSO machine. *)
From Coq Require Import List Arith Bool.
From Verif Require Import Base UTsoModel.
Import ListNotations.

(** A FIFO queue [q] into which a pushed value is inserted some time after push returned: until
    then it is in [p] ("on the way").  [b]: nothing was in the queue when pop was last called.
    pop takes the oldest value of the queue, and returns false only if [b]. *)
Fixpoint replay (t : list event) (p q : list item) (b : bool) (p' q' : list item) (b' : bool) : Prop :=
  match t with
  | [] => p' = p /\ q' = q /\ b' = b
  | EPush x :: t' => replay t' (p ++ [x]) q b p' q' b'
  | EVis :: t' => exists x p1, p = x :: p1 /\ replay t' p1 (q ++ [x]) b p' q' b'
  | ECallPop :: t' => replay t' p q (match q with [] => true | _ => false end) p' q' b'
  | EPop x :: t' => exists q1, q = x :: q1 /\ replay t' p q1 b p' q' b'
  | EPopEmpty :: t' => b = true /\ replay t' p q b p' q' b'
  end.

(** The observations are those of such a queue, now with [p] on the way and [q] inside. *)
Definition delayed_fifo (t : list event) (p q : list item) : Prop := exists b, replay t [] [] false p q b.

Fixpoint pushes (t : list event) : list item :=
  match t with [] => [] | EPush x :: t' => x :: pushes t' | _ :: t' => pushes t' end.
Fixpoint pops (t : list event) : list item :=
  match t with [] => [] | EPop x :: t' => x :: pops t' | _ :: t' => pops t' end.
