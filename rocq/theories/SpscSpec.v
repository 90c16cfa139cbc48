(** Specification: a bounded FIFO queue as a plain list.  Independent of the ring. *)
From Coq Require Import List Arith.
From Verif Require Import SpscSeqModel.
Import ListNotations.

Section Spec.
Context {A : Type}.

(** [spec_step cap q o]: queue content [q] (oldest first), capacity [cap]. *)
Definition spec_step (cap : nat) (q : list A) (o : op A) : list A * out A :=
  match o with
  | OPush x => if length q <? cap then (q ++ [x], RBool true) else (q, RBool false)
  | OPop => match q with [] => ([], RVal None) | x :: q' => (q', RVal (Some x)) end
  | OEmpty => (q, RBool (match q with [] => true | _ => false end))
  | OAvailable => (q, RBool (length q <? cap))
  | OLength => (q, RNat (length q))
  | OTop => (q, RVal (match q with [] => None | x :: _ => Some x end))
  | OReset _ => ([], RUnit)
  end.

Fixpoint spec_run (cap : nat) (q : list A) (l : list (op A)) : list A * list (out A) :=
  match l with
  | [] => (q, [])
  | o :: l' => let (q', x) := spec_step cap q o in
               let (q'', xs) := spec_run cap q' l' in (q'', x :: xs)
  end.
End Spec.
