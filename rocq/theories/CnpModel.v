(** combine_nodes_in_pipeline (ff/combine.hpp:879-966): two stages put in a pipeline, merged where
    one of them is a farm.  Simplifications: those of CfmModel. *)
From Coq Require Import List Arith Bool.
From Verif Require Import CwsModel CfmModel.
Import ListNotations.

(** A farm; any other block. *)
Inductive stage := F (f : farm) | B (b : bb).
Definition block (x : stage) : bb := match x with F f => Farm (em f) (co f) (wk f) | B b => b end.

Section Kinds.
  (** isMultiOutput of a node (of the last one, for a composition: combine.hpp:189-206). *)
  Variable mo : bb -> bool.
  Definition is_seq (b : bb) : bool := same (kindof b) KSeq.
  Definition is_comb (b : bb) : bool := match b with Comb _ _ => true | _ => false end.
  Definition is_a2a_s (x : stage) : bool := match x with B b => same (kindof b) KA2a | F _ => false end.

  (** combine.hpp:900-932.  A parallel block is refused by add_emitter and the value returned is not
      looked at (ff/farm.hpp:955-958); a composed emitter that is not multi-output aborts (959-970).
      A composition with a parallel block is empty (combine.hpp:340-357). *)
  Definition seq_farm (b : bb) (f : farm) : out :=
    match em f with
    | None =>
        if negb (is_seq b) then Ok [Farm None (co f) (wk f)]
        else if is_comb b && negb (mo b) then Ub
        else Ok [Farm (Some b) (co f) (wk f)]
    | Some e => if is_seq b then Ok [Farm (Some (Comb b e)) (co f) (wk f)] else Ub
    end.
  (** combine.hpp:932-945, with add_collector (ff/farm.hpp:1167-1197). *)
  Definition farm_seq (f : farm) (b : bb) : out :=
    match co f with
    | Some (Some c) => if is_seq b then Ok [Farm (em f) (Some (Some (Comb c b))) (wk f)] else Ub
    | _ => if is_seq b then Ok [Farm (em f) (Some (Some b)) (wk f)] else Ok [Farm (em f) (co f) (wk f)]
    end.
  (** combine.hpp:946-965.  With a collector and no emitter, the composition is given a null pointer,
      stays empty (combine.hpp:90-94), and its last node is read. *)
  Definition farm_farm (f1 f2 : farm) : out :=
    match co f1, em f2 with
    | Some (Some c), None => Ub
    | Some (Some c), Some e => if mo e then two_farms f1 f2 (Some (Comb c e)) else Ub
    | _, e => two_farms f1 f2 e
    end.

  (** combine.hpp:879-966; the call aborts for an ordered farm followed by a block that is not a
      farm (893-895). *)
  Definition nodes_in_pipeline (x y : stage) : out :=
    if is_a2a_s x || is_a2a_s y then Err
    else
      match x, y with
      | F f1, F f2 => if ord f1 then ofarm_farm mo f1 f2 else farm_farm f1 f2
      | F f1, B b => if ord f1 then Ub else farm_seq f1 b
      | B b, F f2 => seq_farm b f2
      | B b, B c => Ok [b; c]
      end.
End Kinds.
