(** Two stages in sequence. *)
From Coq Require Import List Arith Bool.
From Verif Require Import CwsModel CwsSpec CfmModel CfmSpec CnpModel.
Import ListNotations.

(** Every item goes through the first stage, then through the second. *)
Definition sequence (x y : stage) (st : list bb) : Prop := paths (Pipe st) = prod (paths (block x)) (paths (block y)).

(** The stages the documentation lists (combine.hpp:870-877): standard nodes, compositions and farms;
    not an ordered farm followed by a node. *)
Definition listed (x y : stage) : Prop :=
  match x, y with
  | F f, F _ => True
  | F f, B b => ord f = false /\ seq b
  | B b, F _ => seq b
  | B b, B c => seq b /\ seq c
  end.
(** A stage made for a place: what becomes part of an emitter ends with a multi-output node; a farm
    with a collector of its own is followed by a farm with an emitter; ordered farms have different
    numbers of workers. *)
Definition suited (mo : bb -> bool) (x y : stage) : Prop :=
  match x, y with
  | F f, F g =>
      if ord f then length (wk f) <> length (wk g) /\ (forall e, em g = Some e -> mo e = true)
                    /\ (em g = None -> forall c, own (co f) = Some c -> mo c = true)
      else forall c, own (co f) = Some c -> exists e, em g = Some e /\ mo e = true
  | B b, F g => em g = None -> (exists i, b = Node i) \/ mo b = true
  | _, _ => True
  end.
