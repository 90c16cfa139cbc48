(** Who deletes the stages and the nodes of farms after combine_nodes_in_pipeline
    (ff/combine.hpp:879-966).  Simplifications: those of CfoModel; the stages are single nodes and
    farms.  [cl]: the arguments cleanup1 and cleanup2. *)
From Coq Require Import List Arith Bool.
From Verif Require Import CfoModel.
Import ListNotations.

(** A node; a farm, an object with a number of its own. *)
Inductive stage := N (n : nat) | F (id : nat) (f : farm).
(** cleanup_all (ff/farm.hpp:1304-1308). *)
Definition cleanup_all (f : farm) : farm := mkFarm (ord f) (em f) true (co f) true (wk f) true.

(** Everything deleted once the farms and the pipeline are destroyed; add_stage with cleanup makes the
    pipeline delete the stage (ff/pipeline.hpp:934-939).
    A node and a farm (combine.hpp:900-932): cleanup1 is used only if the farm has an emitter. *)
Definition node_farm (n : nat) (cl1 : bool) (id : nat) (f : farm) (cl2 : bool) : list nat :=
  match em f with
  | None => dels (mkFarm (ord f) (Some n) (clE f) (co f) (clC f) (wk f) (clW f)) ++ on cl2 [id]
  | Some e => (on cl1 [n] ++ on (clE f) [e]) ++ on (clC f) (opt (co f)) ++ on (clW f) (wk f) ++ on cl2 [id]
  end.
(** A farm and a node (combine.hpp:932-945), with add_collector (ff/farm.hpp:1190-1192): the flag is
    set if cleanup2 is, and is left as it is if not. *)
Definition farm_node (id : nat) (f : farm) (cl1 : bool) (n : nat) (cl2 : bool) : list nat :=
  match co f with
  | None => dels (mkFarm (ord f) (em f) (clE f) (Some n) (if cl2 then true else clC f) (wk f) (clW f)) ++ on cl1 [id]
  | Some c => on (clE f) (opt (em f)) ++ (on (clC f) [c] ++ on cl2 [n]) ++ on (clW f) (wk f) ++ on cl1 [id]
  end.
(** Two farms (combine.hpp:946-965): with a collector and an emitter, both go to a composition that
    the second farm deletes. *)
Definition farm_farm (id1 : nat) (f1 : farm) (cl1 : bool) (id2 : nat) (f2 : farm) (cl2 : bool) : option (list nat) :=
  match co f1, em f2 with
  | None, _ => Some ((dels f1 ++ on cl1 [id1]) ++ dels f2 ++ on cl2 [id2])
  | Some _, None => None
  | Some c, Some e =>
      Some ((on (clE f1) (opt (em f1)) ++ on (clW f1) (wk f1) ++ on cl1 [id1])
            ++ (on (clC f1) [c] ++ on (clE f2) [e]) ++ on (clC f2) (opt (co f2)) ++ on (clW f2) (wk f2) ++ on cl2 [id2])
  end.
(** The first farm ordered (combine.hpp:884-892): the arguments set all the flags of the farms. *)
Definition ofarm (f1 : farm) (cl1 : bool) (f2 : farm) (cl2 : bool) : list nat :=
  let r := ofarm_farm (if cl1 then cleanup_all f1 else f1) (if cl2 then cleanup_all f2 else f2) in
  now r ++ dels (f1' r) ++ dels (f2' r) ++ pipe r.

(** None: the call is not accepted (C78). *)
Definition nodes_in_pipeline (x : stage) (cl1 : bool) (y : stage) (cl2 : bool) : option (list nat) :=
  match x, y with
  | N n, N m => Some (on cl1 [n] ++ on cl2 [m])
  | N n, F id f => Some (node_farm n cl1 id f cl2)
  | F id f, N n => if ord f then None else Some (farm_node id f cl1 n cl2)
  | F i f, F j g =>
      if ord f then
        if ord g && (length (wk f) =? length (wk g)) then None else Some (ofarm f cl1 g cl2)
      else farm_farm i f cl1 j g cl2
  end.
