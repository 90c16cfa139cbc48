(** Who deletes the nodes of two farms after combine_farms (ff/combine.hpp:975-1598).

    Simplifications: filters and workers are single nodes with a number; only the nodes of the user
    are followed, not the copies, wrappers and compositions made by the call (a composition of them
    only counts for the nodes of the user it deletes); the call is one that is accepted, as far as the
    kinds of the nodes and workers are concerned (C77); no collector was removed before the call; the
    farms have not run. *)
From Coq Require Import List Arith Bool.
Import ListNotations.

(** isOFarm; emitter and emitter_cleanup; collector of its own and collector_cleanup; workers and
    worker_cleanup (ff/farm.hpp:1285-1308). *)
Record farm := mkFarm { ord : bool; em : option nat; clE : bool; co : option nat; clC : bool; wk : list nat; clW : bool }.
Definition opt (o : option nat) : list nat := match o with Some x => [x] | None => [] end.
Definition on (b : bool) (l : list nat) : list nat := if b then l else [].
(** The destructor (ff/farm.hpp:892-912). *)
Definition dels (f : farm) : list nat := on (clE f) (opt (em f)) ++ on (clC f) (opt (co f)) ++ on (clW f) (wk f).

(** What is deleted during the call; the farms afterwards; what is deleted with the pipeline. *)
Record result := mkRes { now : list nat; f1' : farm; f2' : farm; pipe : list nat }.

(** change_emitter (ff/farm.hpp:999-1010) with add_emitter (952-987): with no emitter the cleanup
    argument is not used.  [e]: the new one, when it is a node of the user. *)
Definition change_emitter (f : farm) (e : option nat) (cleanup : bool) : list nat * farm :=
  match em f with
  | None => ([], mkFarm (ord f) e (clE f) (co f) (clC f) (wk f) (clW f))
  | Some x => (on (clE f) [x], mkFarm (ord f) e cleanup (co f) (clC f) (wk f) (clW f))
  end.
(** The flags cleared in the farms once the new farm has the nodes: the emitter and the workers of the
    first, the collector and the workers of the second (combine.hpp:999-1020, 1126-1163, 1449-1490,
    1529-1583).  The flag of the emitter is looked at only if there is one. *)
Definition given1 (f : farm) : farm :=
  mkFarm (ord f) (em f) (match em f with Some _ => false | None => clE f end) (co f) (clC f) (wk f) false.
Definition given2 (f : farm) : farm := mkFarm (ord f) (em f) (clE f) (co f) false (wk f) false.
(** combine_farms_a2a without a node, combine_farms_nf, cases 3.1 and 4.1. *)
Definition moved (nw : list nat) (f1 f2 : farm) : result :=
  mkRes nw (given1 f1) (given2 f2) (on (clE f1) (opt (em f1)) ++ on (clC f2) (opt (co f2)) ++ on (clW f1) (wk f1) ++ on (clW f2) (wk f2)).
(** combine_farms_a2a with a node (combine.hpp:1039-1087): the compositions delete the workers of the
    first farm if it did, and its flag stays. *)
Definition a2a_node (f1 f2 : farm) : result :=
  mkRes [] f1 (mkFarm (ord f2) (em f2) (clE f2) (co f2) (clC f2) (wk f2) false) (on (clW f1) (wk f1) ++ on (clW f2) (wk f2)).
(** combine_ofarm_farm (combine.hpp:1194-1270).  The second farm is copied in the pipeline, and the
    copy takes its flags (ff/farm.hpp:844-852).  The new emitter is a composition that deletes the
    collector of the first and the emitter of the second if the farms did; with no emitter before, it
    is deleted only if the flag was set. *)
Definition ofarm_farm (f1 f2 : farm) : result :=
  let comp := on (clC f1) (opt (co f1)) ++ on (clE f2) (opt (em f2)) in
  let kept := match em f2 with None => clE f2 | Some _ => true end in
  mkRes []
    (mkFarm (ord f1) (em f1) (match em f1 with Some _ => false | None => clE f1 end) (co f1)
       (match co f1 with Some _ => false | None => clC f1 end) (wk f1) false)
    (mkFarm (ord f2) None false (co f2) false (wk f2) false)
    (on (clE f1) (opt (em f1)) ++ on (clW f1) (wk f1) ++ on kept comp ++ on (clC f2) (opt (co f2)) ++ on (clW f2) (wk f2)).

(** Two farms in the pipeline, which does not own them. *)
Definition two (f1 : farm) (r : list nat * farm) : result := mkRes (fst r) f1 (snd r) [].

(** combine_farms (combine.hpp:1312-1594); [mi]: node1 is multi-input.  None: the call is refused. *)
Definition combine_farms (mi : bool) (f1 : farm) (n1 : option nat) (f2 : farm) (n2 : option nat) (merge : bool) : option result :=
  if merge then
    if ord f1 || ord f2 then
      match n1, n2 with
      | None, None =>
          if length (wk f1) =? length (wk f2) then None
          else if ord f1 then Some (ofarm_farm f1 f2) else Some (two f1 ([], f2))
      | _, _ => None
      end
    else
      match n1, n2 with
      | None, None =>
          if length (wk f1) =? length (wk f2) then Some (moved [] f1 f2)
          else let r := change_emitter f2 None false in Some (moved (fst r) f1 (snd r))
      | Some _, Some _ => Some (two f1 (change_emitter f2 None true))
      | None, Some _ => Some (two f1 (change_emitter f2 None false))
      | Some a, None => Some (two f1 (change_emitter f2 (if mi then None else Some a) false))
      end
  else if ord f1 || ord f2 then None
  else
    match n1, n2 with
    | None, None => let r := change_emitter f2 None false in Some (moved (fst r) f1 (snd r))
    | None, Some _ => Some (a2a_node f1 f2)
    | Some _, None => Some (moved [] f1 f2)
    | Some _, Some _ => Some (moved [] f1 f2)
    end.
