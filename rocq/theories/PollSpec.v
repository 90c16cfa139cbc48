(** What a user of an emitter with several input channels expects. *)
From Coq Require Import List Arith Bool.
From Verif Require Import Base PollModel.
Import ListNotations.

Section Spec.
  Context {X : Type}.

  (** The values in a sequence of messages; the values svc was given from channel c. *)
  Fixpoint vals (l : list (msg X)) : list X :=
    match l with [] => [] | Val x :: r => x :: vals r | _ :: r => vals r end.
  Fixpoint given (c : src) (l : list (event X)) : list X :=
    match l with
    | [] => []
    | ESvc d _ x :: r => if src_eqb d c then x :: given c r else given c r
    | _ :: r => given c r
    end.

  (** The sequence ends with an end-of-stream mark. *)
  Definition closed (l : list (msg X)) : Prop := In Eos l \/ In EosNF l.

  (** The channel number the documentation promises: workers are numbered from 0, then the other
      feedback channels; the input channels are numbered from 0 on their own. *)
  Definition right_id (F : cfg) (e : event X) : Prop :=
    match e with
    | ESvc (Wk i) r _ => r = Feed i
    | ESvc (Fbk i) r _ => r = Feed (nwk F + i)
    | ESvc (Min j) r _ => r = Inp j
    | ESvc Inq r _ => r = Queue
    | _ => True
    end.

  (** A value that came from the previous stage is not presented as the answer of a worker. *)
  Definition right_side (e : event X) : Prop :=
    match e with
    | ESvc (Min _) (Feed _) _ | ESvc Inq (Feed _) _ => False
    | ESvc (Wk _) (Inp _) _ | ESvc (Wk _) Queue _ | ESvc (Fbk _) (Inp _) _ | ESvc (Fbk _) Queue _ => False
    | _ => True
    end.

  Definition is_poll (a : act X) : bool := match a with Poll _ => true | _ => false end.
  Definition polls (l : list (act X)) : nat := length (filter is_poll l).

  (** The user's code leaves input active and goes on. *)
  Definition keeps_on (a : act X) : Prop := match a with Poll u => act_ u = true /\ stop u = false | _ => True end.
  (** The user's code does not end the stream by itself. *)
  Definition goes_on (a : act X) : Prop := match a with Poll u => stop u = false | _ => True end.
End Spec.
