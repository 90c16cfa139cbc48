(** Ownership when two farms are combined. *)
From Coq Require Import List Arith Bool Permutation.
From Verif Require Import CfoModel.
Import ListNotations.

(** All deletions: during the call, then of the two farms and of the pipeline. *)
Definition deleted (r : result) : list nat := now r ++ dels (f1' r) ++ dels (f2' r) ++ pipe r.
(** Each node the farms had to delete is deleted once, and no other is. *)
Definition same_deletions (f1 f2 : farm) (r : result) : Prop := Permutation (deleted r) (dels f1 ++ dels f2).
(** The farms do not have the flag of a filter they do not have (as after cleanup_all). *)
Definition flags_match (f : farm) : Prop := em f = None -> clE f = false.
