(** What a user expects of a double-ended sequence. *)
From Coq Require Import ZArith List.
From Verif Require Import Outcome SqueueModel.
Import ListNotations.

Section Spec.
  Context {T : Type}.
  (** Result of an element access: the element, nothing at all outside the sequence. *)
  Definition elem (o : option T) : ret T := match o with Some x => RVal x | None => RUnit end.

  Definition spec_step (l : list T) (o : op T) : list T * ret T :=
    match o with
    | PushBack x => (l ++ [x], RUnit)
    | PopBack => (removelast l, RUnit)
    | PopFront => (tl l, RUnit)
    | Back => (l, elem (nth_error l (length l - 1)))
    | Front => (l, elem (nth_error l 0))
    | At i => (l, elem (nth_error l i))
    | Size => (l, RSize (Z.of_nat (length l)))
    end.

  (** Legal calls: element access only to existing elements. *)
  Definition legal (l : list T) (o : op T) : Prop :=
    match o with
    | Back | Front => l <> []
    | At i => i < length l
    | _ => True
    end.
End Spec.
