(** What should be deleted: the stages given with cleanup, and what the farms own. *)
From Coq Require Import List Arith Bool Permutation.
From Verif Require Import CfoModel CfoSpec CnoModel.
Import ListNotations.

Definition owned (x : stage) (cl : bool) : list nat :=
  match x with N n => on cl [n] | F id f => dels f ++ on cl [id] end.
Definition as_owned (x : stage) (cl1 : bool) (y : stage) (cl2 : bool) (l : list nat) : Prop :=
  Permutation l (owned x cl1 ++ owned y cl2).
(** No flag of a filter that is not there. *)
Definition tidy (x : stage) : Prop :=
  match x with N _ => True | F _ f => flags_match f /\ (co f = None -> clC f = false) end.
(** A node given with cleanup before a farm without an emitter. *)
Definition lost_node (x : stage) (cl1 : bool) (y : stage) : Prop :=
  match x, y with N _, F _ f => cl1 = true /\ em f = None | _, _ => False end.
(** An ordered first farm: one of the stages is given with cleanup, or its collector is lost (C79). *)
Definition ordered_cleanup (x : stage) (cl1 : bool) (y : stage) (cl2 : bool) : Prop :=
  match x, y with
  | F _ f, F _ g => ord f = true /\ (cl1 = true \/ cl2 = true \/ em g = None /\ clE g = false /\ clC f = true /\ co f <> None)
  | _, _ => False
  end.
