(** What a user expects of the load balancer's routing. *)
From Coq Require Import List ZArith Permutation.
From Verif Require Import SchedModel.
Import ListNotations.

Section Spec.
  Context {T : Type}.
  Variable n : nat.

  (** The worker tried [j] places after the one selected last, going round the [n] workers. *)
  Definition turn (last : Z) (j : nat) : nat := Z.to_nat ((last + 1 + Z.of_nat j) mod Z.of_nat n).

  (** A balancer state that can occur: nothing selected yet (-1) or a worker. *)
  Definition wf (s : lb T) : Prop := (-1 <= nextw s < Z.of_nat n)%Z.

  (** [goes_to ok s j x s']: the first [j] workers tried, going round, refuse; the next one accepts the
      task, nobody else gets it, and that worker is the last one selected. *)
  Definition goes_to (ok : nat -> nat -> bool) (s : lb T) (j : nat) (x : T) (s' : lb T) : Prop :=
    (forall i, i < j -> ok (clock s + i) (turn (nextw s) i) = false) /\
    ok (clock s + j) (turn (nextw s) j) = true /\
    sent s' = sent s ++ [(turn (nextw s) j, x)] /\
    nextw s' = Z.of_nat (turn (nextw s) j) /\
    clock s' = clock s + j + 1.

  (** [refused ok s j s']: the [j] workers tried, going round, all refuse, and nobody gets the task. *)
  Definition refused (ok : nat -> nat -> bool) (s : lb T) (j : nat) (s' : lb T) : Prop :=
    (forall i, i < j -> ok (clock s + i) (turn (nextw s) i) = false) /\
    sent s' = sent s /\ clock s' = clock s + j.

  (** The documented meaning of a finite number of retries, for any number of workers: when every
      worker stays full, the call returns false. *)
  Definition bounded_retry (blocking : bool) : Prop :=
    forall (retry : nat) (x : T) (s : lb T), 0 < n -> wf s ->
      exists fuel s', schedule n (fun _ _ => false) blocking fuel retry x s = Some (s', false).
End Spec.
