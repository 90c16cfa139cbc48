(** What the user of the distributed runtime expects of a connection. *)
From Coq Require Import List ZArith.
From Verif Require Import FrameModel.
Import ListNotations.
Local Open Scope Z_scope.

(** Addresses are 16-bit node identifiers, a message without payload is an end-of-stream of a
    proper source node. *)
Definition valid (m : msg) : Prop :=
  - 2 ^ 15 <= m_dest m < 2 ^ 15 /\ - 2 ^ 15 <= m_src m < 2 ^ 15 /\ 0 <= m_type m < 2 /\
  Z.of_nat (length (m_data m)) < 2 ^ 64 /\ (m_data m = [] -> m_src m <> -1).

(** The item the receiver must deliver for a message. *)
Definition deliver (m : msg) : item := match m_data m with [] => Eos (m_src m) | _ => Item m end.

Definition pushed (l : list cmd) : list msg := flat_map (fun c => match c with Push m => [m] | Flush => [] end) l.
