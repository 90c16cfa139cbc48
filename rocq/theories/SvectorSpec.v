(** What a user expects of a vector. *)
From Coq Require Import List Arith.
From Verif Require Import Outcome SvectorModel.
Import ListNotations.

Section Spec.
  Context {T : Type}.
  Definition elem (o : option T) : ret T := match o with Some x => RVal x | None => RUnit end.

  (** [d] is the default value of the element type. *)
  Definition spec_step (d : T) (l : list T) (o : op T) : list T * ret T :=
    match o with
    | PushBack x => (l ++ [x], RUnit)
    | PopBack => (removelast l, RUnit)
    | Back => (l, elem (nth_error l (length l - 1)))
    | Front => (l, elem (nth_error l 0))
    | Get i => (l, elem (nth_error l i))
    | Erase p => (firstn p l ++ skipn (p + 1) l, RUnit)
    | Insert p x => (firstn p l ++ x :: skipn p l, RUnit)
    | Reserve _ => (l, RUnit)
    | Resize n => (firstn n l ++ repeat d (n - length l), RUnit)
    | Clear => ([], RUnit)
    | Size => (l, RSize (length l))
    | Assign m => (m, RUnit)
    | Append m => (l ++ m, RUnit)
    | AppendSelf => (l ++ l, RUnit)
    end.

  (** Legal calls, as for std::vector. *)
  Definition legal (l : list T) (o : op T) : Prop :=
    match o with
    | PopBack | Back | Front => l <> []
    | Get i | Erase i => i < length l
    | Insert p _ => p <= length l
    | _ => True
    end.
End Spec.
