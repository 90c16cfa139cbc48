(** What a search on a graph is expected to compute. *)
From Coq Require Import List.
Import ListNotations.

(** Nodes that can be reached from [a] along the edges [out]. *)
Inductive reach (out : nat -> list nat) (a : nat) : nat -> Prop :=
| reach_here : reach out a a
| reach_next : forall n m, reach out a n -> In m (out n) -> reach out a m.

(** Identifiers tell the reachable nodes apart and fit in the mask. *)
Definition good_ids (out : nat -> list nat) (ident : nat -> nat) (bits a : nat) : Prop :=
  (forall n, reach out a n -> ident n < bits) /\
  (forall n m, reach out a n -> reach out a m -> ident n = ident m -> n = m).
