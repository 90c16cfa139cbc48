(** What a multi-input node should be told about the channels. *)
From Coq Require Import List ZArith Bool.
From Verif Require Import GatherModel MinModel.
Import ListNotations.

(** The channel a call was told about. *)
Definition told {A} (c : ucall A) : Z * bool :=
  match c with CSvc _ i b => (i, b) | CEos _ i b => (i, b) end.
Definition about (i : Z) (b : bool) {A} (c : ucall A) : bool :=
  (fst (told c) =? i)%Z && Bool.eqb (snd (told c)) b.

(** The calls that the messages [l] of one channel, number [i], must lead to: svc for each task, in order,
    then eosnotify with that number (if the node is notified at each end). *)
Fixpoint due {A} (each : bool) (i : Z) (b : bool) (l : list (msg A)) : list (ucall A) :=
  match l with
  | [] => []
  | Task x :: l => CSvc (Some x) i b :: due each i b l
  | GoOn :: l => due each i b l
  | Mark _ :: _ => if each then [CEos i i b] else []
  end.

(** The calls made because of a message: not the first call of svc without a task, and not the call of
    eosnotify() without argument at the very end. *)
Definition of_message {A} (c : ucall A) : bool :=
  match c with CSvc None _ _ => false | CEos a _ _ => negb (a =? -1)%Z | _ => true end.

(** eosnotify() without argument. *)
Definition at_the_end {A} (c : ucall A) : bool := match c with CEos a _ _ => (a =? -1)%Z | _ => false end.

Definition prefix_of {X} (p l : list X) : Prop := exists r, p ++ r = l.

(** svc never asks to leave. *)
Definition stays {A B St} (svc : St -> option A -> Z -> bool -> St * fres B) : Prop :=
  forall u t i b, match snd (svc u t i b) with FOut _ | FGoOn => True | _ => False end.
