(** What a user expects of all_gather. *)
From Coq Require Import List Arith Bool.
From Verif Require Import Base AgModel.
Import ListNotations.

Section Spec.
  Context {X : Type}.

  (** The stream of a channel: its values, then the mark. *)
  Definition full (xs : list X) : list (msg X) := map Val xs ++ [Eos].

  (** Row k of the streams: the k-th value of each channel, in channel order. *)
  Definition row_of (n : nat) (xs : nat -> list X) (k : nat) : row X :=
    map (fun c => option_map Val (nth_error (xs c) k)) (seq 0 n).

  (** svc calls all_gather for every task. *)
  Definition gathers (a : act X) : Prop := match a with Take _ g => g = true | _ => True end.
  (** Steps of the gathering thread. *)
  Definition own (a : act X) : Prop := match a with Send _ _ => False | _ => True end.

  (** The values of a sequence of messages; the values that calls of svc saw from channel c. *)
  Definition vals (l : list (msg X)) : list X := flat_map (fun m => match m with Val x => [x] | Eos => [] end) l.
  Definition slot (o : option (msg X)) : list X := match o with Some (Val x) => [x] | _ => [] end.
  Definition column (c : nat) (log : list (row X)) : list X := flat_map (fun r => slot (nth c r None)) log.
End Spec.
