(** What a user expects of the channels of an all-to-all. *)
From Coq Require Import List Arith Bool.
From Verif Require Import AwModel.
Import ListNotations.

(** The feedback goes from every node of the second set to every node of the first if the former
    have several outputs and the latter several inputs, otherwise from the i-th to the i-th. *)
Inductive feedback := NoFeedback | AllToAll | OneToOne.

(** From node i of one set to which of the n nodes of the other. *)
Definition peers (f : feedback) (n i : nat) : list nat :=
  match f with NoFeedback => [] | AllToAll => seq 0 n | OneToOne => [i] end.

(** A channel for every connection, a different one for each: [ch false j i] from node j of the
    first set to node i of the second, [ch true j i] for the way back.  Output number i of node j of
    the first set leads to node i of the second, whose input number j it is; and so for the
    feedback.  No thread has any other channel. *)
Definition wired (f : feedback) (ls rs : list kind) (h : heap) : Prop :=
  let nl := length ls in
  let nr := length rs in
  exists ch : bool -> nat -> nat -> nat,
    (forall b j i b' j' i', j < nl -> j' < nl -> i < nr -> i' < nr ->
       (b = true -> In j (peers f nl i)) -> (b' = true -> In j' (peers f nl i')) ->
       ch b j i = ch b' j' i' -> b = b' /\ j = j' /\ i = i')
    /\ (forall j, j < nl ->
          outputs ls rs h (L j) = map (fun i => Some (ch false j i)) (seq 0 nr)
          /\ inputs ls rs h (L j) = map (fun i => Some (ch true j i)) (peers f nr j))
    /\ (forall i, i < nr ->
          inputs ls rs h (R i) = map (fun j => Some (ch false j i)) (seq 0 nl)
          /\ outputs ls rs h (R i) = map (fun j => Some (ch true j i)) (peers f nl i)).

(** All the nodes of a set are of the same kind. *)
Definition alike (k : kind) (ks : list kind) : Prop := ks <> [] /\ Forall (eq k) ks.

(** The feedback that the kinds of the two sets call for. *)
Definition wanted (w : bool) (kl kr : kind) : feedback :=
  if w then if mo kr && mi kl then AllToAll else OneToOne else NoFeedback.

(** Which all-to-alls the library can connect: a first set that is multi-input must be multi-output
    too, a second set that is multi-output multi-input too; feedback one to one needs sets of the
    same size. *)
Definition fits (w : bool) (kl kr : kind) (nl nr : nat) : bool :=
  (negb (mi kl) || mo kl) && (negb (mo kr) || mi kr)
  && match wanted w kl kr with OneToOne => nl =? nr | _ => true end.
