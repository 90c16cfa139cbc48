(** What a farm computes: the input is dealt to the workers, and their results are merged. *)
From Coq Require Import List.
From Verif Require Import Base PipeModel PipeSpec FarmModel.
Import ListNotations.

Section Spec.
  Context {A St : Type}.

  (** [interleaving parts l]: the elements of [l] are dealt to the sequences [parts], each
      element to exactly one of them, keeping the order. *)
  Inductive interleaving : list (list A) -> list A -> Prop :=
  | il_nil : forall n, interleaving (repeat [] n) []
  | il_snoc : forall parts l w p x, interleaving parts l -> nth_error parts w = Some p ->
      interleaving (lupd parts w (p ++ [x])) (l ++ [x]).

  (** The outputs of the workers on their shares of the input. *)
  Definition results (wn : list (node A St * St * option nat * option nat)) (parts : list (list A)) : list (list A) :=
    map (fun '((nd, s, _, _), p) => node_fun nd s p) (combine wn parts).
End Spec.
