(** What an item should go through after two farms are combined. *)
From Coq Require Import List Arith Bool.
From Verif Require Import CwsModel CwsSpec CfmModel.
Import ListNotations.

Definition opath (o : option bb) : list path := match o with Some x => paths x | None => [[]] end.
Definition npath (o : option nat) : list path := match o with Some n => [[n]] | None => [[]] end.
Definition own (c : option (option bb)) : option bb := match c with Some (Some x) => Some x | _ => None end.

(** The first farm has no collector of its own and the second no emitter of its own: their place is
    that of node1 and node2. *)
Definition open_farms (f1 f2 : farm) : Prop := own (co f1) = None /\ em f2 = None.

(** The emitter of the first farm, one of its workers, node1, node2, one of the workers of the second
    farm, its collector. *)
Definition in_sequence (f1 : farm) (n1 : option nat) (f2 : farm) (n2 : option nat) : list path :=
  prod (opath (em f1)) (prod (flat_map paths (wk f1)) (prod (npath n1) (prod (npath n2) (prod (flat_map paths (wk f2)) (opath (own (co f2))))))).

(** The normal form, for two farms with as many workers, merged and with no node between them: the
    i-th worker of the first, then the i-th of the second. *)
Definition in_pairs (f1 f2 : farm) : list path :=
  prod (opath (em f1))
    (prod (flat_map (fun p => prod (paths (fst p)) (paths (snd p))) (combine (wk f1) (wk f2))) (opath (own (co f2)))).
Definition normal_form (f1 : farm) (n1 : option nat) (f2 : farm) (n2 : option nat) (merge : bool) : Prop :=
  merge = true /\ n1 = None /\ n2 = None /\ ord f1 = false /\ ord f2 = false /\ length (wk f1) = length (wk f2).

(** What the documentation of combine_farms announces (combine.hpp:1273-1310). *)
Definition as_documented (f1 : farm) (n1 : option nat) (f2 : farm) (n2 : option nat) (merge : bool) (st : list bb) : Prop :=
  (normal_form f1 n1 f2 n2 merge -> paths (Pipe st) = in_pairs f1 f2)
  /\ (~ normal_form f1 n1 f2 n2 merge -> paths (Pipe st) = in_sequence f1 n1 f2 n2).

(** Calls that must be accepted: farms that are not ordered, whose workers are sequential and exist;
    the kinds of workers and nodes the code asks for. *)
Definition acceptable (mi mo : bb -> bool) (f1 : farm) (n1 : option nat) (f2 : farm) (n2 : option nat) (merge : bool) : Prop :=
  ord f1 = false /\ ord f2 = false /\ wk f1 <> [] /\ wk f2 <> []
  /\ Forall (fun x => seq x /\ mo x = false) (wk f1) /\ Forall (fun x => seq x /\ mi x = false) (wk f2)
  /\ (forall a, n1 = Some a -> mi (Node a) = false)
  /\ (forall b, n2 = Some b -> mi (Node b) = false /\ mo (Node b) = false).
