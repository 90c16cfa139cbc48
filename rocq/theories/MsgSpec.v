(** What it means for memory to be handled properly, on the sequence of events alone. *)
From Coq Require Import List Arith Bool.
From Verif Require Import MsgModel.
Import ListNotations.

Definition born (l : list ev) (r : res) : Prop := exists o cb sz, In (Born r o cb sz) l.
Definition ended (l : list ev) (r : res) : Prop := exists h, In (Done r h) l.

(** Nothing comes into being twice; nothing is used, released or given away before it exists or
    after it was released or given away. *)
Definition proper (l : list ev) : Prop := forall before e after, l = before ++ e :: after ->
  match e with
  | Born r _ _ _ => ~ born before r
  | Use r => born before r /\ ~ ended before r
  | Done r _ => born before r /\ ~ ended before r
  end.

(** Each thing is released the way it has to be: a payload block with free() or by the hook that
    came with it; a task whose bytes were copied with the user's freeTask; a task that lends its
    bytes by its hook, called with its own owner (and size). *)
Definition right_way (l : list ev) (r : res) (h : how) : Prop :=
  match h with
  | Given => True
  | Free => (exists b, r = Blk b) /\ exists o sz, In (Born r o false sz) l
  | Hook o sz => In (Born r o true sz) l
  | Delete => (exists t, r = Task t) /\ In (Born r None false 0) l
  end.

(** No message is travelling. *)
Definition quiet (s : st) : Prop := forall m, match at_ s m with ToSender | ToNode | Held _ => False | _ => True end.
