(** What the distributed runtime must deliver, independently of groups, batches and routers. *)
From Coq Require Import List Arith Bool.
From Verif Require Import Base DgrModel.
Import ListNotations.

(** The elements of l whose target is v ([t]: one target for each element of l). *)
Definition picks {T} (v : nat) (l : list T) (t : list nat) : list T :=
  map fst (filter (fun p => snd p =? v) (combine l t)).

(** What a node was handed from source u, in order; None: the end of u's stream. *)
Definition from {T} (u : nat) (l : list (nat * option T)) : list (option T) :=
  map snd (filter (fun p => fst p =? u) l).

Section Spec.
  Context {X : Type}.
  Variable edges : list (nat * nat).

  (** A value sent by u may go to v: there is a channel, and v is the node asked for, if one was. *)
  Definition may_go (u : nat) (p : option nat * X) (v : nat) : Prop :=
    In (u, v) edges /\ forall w, fst p = Some w -> v = w.

  (** [shares u l t]: t gives each value of l, sent by u, one destination. *)
  Definition shares (u : nat) (l : list (option nat * X)) (t : list nat) : Prop := Forall2 (may_go u) l t.

  (** What v has to receive from u: its share, then the end of the stream. *)
  Definition owed (v : nat) (l : list (option nat * X)) (t : list nat) : list (option X) :=
    map Some (map snd (picks v l t)) ++ [None].

  (** Steps of the runtime, as opposed to those of the user's nodes. *)
  Definition internal (a : act X) : bool :=
    match a with
    | SendTo _ _ _ | SendAny _ _ | AskFlush _ | End _ | EosTo _ _ => false
    | _ => true
    end.
  (** No end of stream addressed to one output (see the refutation). *)
  Definition no_eos_to (a : act X) : bool := match a with EosTo _ _ => false | _ => true end.
End Spec.
