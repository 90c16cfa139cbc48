(** getBB (ff/graph_utils.hpp:100-165): the building block that contains a node.

    Simplifications: a pointer to a node is a number, the same for the same node; a farm's default
    collector and a removed one count as none (getCollector returns null, ff/farm.hpp:1693-1696), as
    a missing emitter does. *)
From Coq Require Import List Arith Bool.
Import ListNotations.

(** A node; a pipeline and its stages (ff/pipeline.hpp); an all-to-all and its two sets
    (ff/all2all.hpp); a farm, whether it is ordered, its emitter, collector and workers
    (ff/farm.hpp); a composition of two nodes (ff/combine.hpp:77-108). *)
Inductive bb :=
| Node (i : nat)
| Pipe (i : nat) (stages : list bb)
| A2a (i : nat) (l r : list bb)
| Farm (i : nat) (ordered : bool) (e c : option bb) (w : list bb)
| Comb (i : nat) (l r : bb).

(** The pointer. *)
Definition id (b : bb) : nat :=
  match b with Node i => i | Pipe i _ => i | A2a i _ _ => i | Farm i _ _ _ _ => i | Comb i _ _ => i end.
(** isComp (ff/combine.hpp:193, ff/node.hpp). *)
Definition isComp (b : bb) : bool := match b with Comb _ _ _ => true | _ => false end.
(** Comparison of getEmitter() or getCollector() with the pointer n. *)
Definition is (o : option bb) (n : nat) : bool := match o with Some b => id b =? n | None => false end.

(** A null pointer, a pointer, a call of abort(). *)
Inductive res := Null | Found (p : nat) | Abort.

(** [if (r) return ((r==n)?self:r);], otherwise [next] (graph_utils.hpp:108-109 and the like). *)
Definition orelse (self n : nat) (r next : res) : res :=
  match r with Null => next | Found p => Found (if p =? n then self else p) | Abort => Abort end.
(** The loop over a vector of nodes (graph_utils.hpp:107-110, 117-124, 134-137). *)
Section Loop.
  Variable f : bb -> res.
  Fixpoint loop (self n : nat) (l : list bb) (next : res) : res :=
    match l with [] => next | x :: r => orelse self n (f x) (loop self n r next) end.
End Loop.

(** graph_utils.hpp:100-165.  For a part of a composition that is not itself a composition,
    getFirst() and getLast() are this part (ff/combine.hpp:196-206). *)
Fixpoint getBB (n : nat) (s : bb) : res :=
  if id s =? n then Found n
  else match s with
       | Node _ => Null
       | Pipe i st => loop (getBB n) i n st Null
       | A2a i l r => loop (getBB n) i n l (loop (getBB n) i n r Null)
       | Farm i ordered e c w =>
           if ordered then Abort
           else if is e n then Found i
           else if is c n then Found i
           else loop (getBB n) i n w Null
       | Comb i l r =>
           let right := if isComp r then orelse (id r) n (getBB n r) Null
                        else if id r =? n then Found i else Null in
           if isComp l then orelse (id l) n (getBB n l) right
           else if id l =? n then Found i else right
       end.
