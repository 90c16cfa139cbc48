(** What an ordered farm computes. *)
From Coq Require Import List Arith.
From Verif Require Import PipeModel PipeSpec.
Import ListNotations.

Section Spec.
  Context {A St : Type}.

  (** The elements of [l] whose position is [w] modulo [n]; [i] is the position of the first. *)
  Fixpoint share {X : Type} (n w i : nat) (l : list X) : list X :=
    match l with
    | [] => []
    | x :: l' => (if i mod n =? w then [x] else []) ++ share n w (S i) l'
    end.

  (** One output per input, possibly depending on a state. *)
  Definition one_one (nd : node A St) : Prop :=
    (forall s x, exists s' y, svc nd s x = (s', [], RTask y)) /\ (forall s, eosn nd s = []).

  (** Worker [i mod n] computes the output in position [i]. *)
  Definition round_robin_result (wn : list (node A St * St * option nat * option nat)) (input outs : list A) : Prop :=
    length outs <= length input /\
    forall i y, nth_error outs i = Some y ->
      exists nd s0 ci co, nth_error wn (i mod length wn) = Some (nd, s0, ci, co) /\
        nth_error (node_fun nd s0 (share (length wn) (i mod length wn) 0 input)) (i / length wn) = Some y.
End Spec.
