(** What a user expects of a collector or multi-input node. *)
From Coq Require Import List.
From Verif Require Import Base GatherModel.
Import ListNotations.

Section Spec.
  Context {A B St : Type}.

  (** The tasks of a channel. *)
  Fixpoint tasks_of (l : list (msg A)) : list A :=
    match l with
    | [] => []
    | Task x :: l => x :: tasks_of l
    | _ :: l => tasks_of l
    end.

  (** A complete stream: tasks (and GO_ONs), then one end-of-stream mark, nothing after it. *)
  Inductive stream (k : mark) : list (msg A) -> Prop :=
  | st_end : stream k [Mark k]
  | st_task : forall x l, stream k l -> stream k (Task x :: l)
  | st_goon : forall l, stream k l -> stream k (GoOn :: l).

  (** What a filter produces from a sequence of tasks. *)
  Fixpoint filtered (svc : St -> A -> St * fres B) (f : St) (l : list A) : list (omsg B) :=
    match l with
    | [] => []
    | x :: l =>
        match svc f x with
        | (f, FOut y) => OTask y :: filtered svc f l
        | (f, _) => filtered svc f l
        end
    end.

  (** The filter never asks to leave: it returns a task or GO_ON. *)
  Definition stays (svc : St -> A -> St * fres B) : Prop :=
    forall f x, exists f' r, svc f x = (f', r) /\ match r with FOut _ | FGoOn => True | _ => False end.

  (** The marks of the channels are of one family: either none or all are EOS_NOFREEZE. *)
  Definition one_family (ks : list mark) : Prop :=
    Forall (fun k => k <> EosNF) ks \/ Forall (fun k => k = EosNF) ks.
End Spec.
