(** What a skeleton computes: the meaning of pipelines, farms, ordered farms and all-to-alls on a
    finite input stream, independent of the optimiser.  A stage reads streams (one per node that
    feeds it) and produces streams (one per node that may send out of it). *)
From Coq Require Import List Arith Bool.
From Verif Require Import Base OptModel.
Import ListNotations.

Section Spec.
  Context {A : Type}.

  (** [merge ls l]: l contains the elements of the lists ls, each list in its order (a node that
      reads several channels sees some interleaving of them). *)
  Inductive merge {T} : list (list T) -> list T -> Prop :=
  | merge_nil : forall ls, Forall (fun l => l = []) ls -> merge ls []
  | merge_cons : forall ls i x r l,
      nth_error ls i = Some (x :: r) -> merge (lupd ls i r) l -> merge ls (x :: l).

  (** Values sent to no channel in particular. *)
  Definition plain (l : list (out A)) : list (out A) := map (fun p => (None, snd p)) l.

  (** Everything a node sends on a whole input stream.  Only a multi-output node can choose the
      channel. *)
  Definition sends (n : node A) (xs : list A) : list (out A) :=
    let o := replies n [] xs ++ fin n xs in if nmo n then o else plain o.

  (** The number of nodes of a stage that read from the previous one. *)
  Fixpoint ports (s : skel A) : nat :=
    match s with
    | Pipe (s :: _) => ports s
    | A2A l _ => list_sum (map ports l)
    | _ => 1
    end.
  (** Channel j of a group of stages with the given numbers of ports: which stage, and which of
      its ports. *)
  Fixpoint locate (ws : list nat) (j : nat) : option (nat * nat) :=
    match ws with
    | [] => None
    | w :: r => if j <? w then Some (0, j) else option_map (fun '(i, d) => (S i, d)) (locate r (j - w))
    end.

  (** Distribution of a stream over a group of stages: a value sent to channel j goes there, the
      others go anywhere; the order is kept. *)
  Inductive route (ws : list nat) : list (out A) -> list (list (out A)) -> Prop :=
  | route_nil : route ws [] (map (fun _ => []) ws)
  | route_cons : forall t x l parts j i d p,
      (forall k, t = Some k -> j = k) -> locate ws j = Some (i, d) ->
      route ws l parts -> nth_error parts i = Some p ->
      route ws ((t, x) :: l) (lupd parts i ((Some d, x) :: p)).

  (** What stage i of a group of n receives, one stream per producer. *)
  Definition columns (n : nat) (pss : list (list (list (out A)))) : list (list (list (out A))) :=
    map (fun i => map (fun ps => nth i ps []) pss) (seq 0 n).

  (** An emitter passes on what it sends; the default one passes on its input. *)
  Definition emission (em : option (node A)) (xs : list (out A)) : list (out A) :=
    match em with None => plain xs | Some n => sends n (payload xs) end.

  (** The streams that leave a farm whose workers produce the streams [os]. *)
  Definition collected (c : coll A) (os outs : list (list (out A))) : Prop :=
    match c with
    | NoColl => outs = os
    | DefColl => exists l, merge os l /\ outs = [plain l]
    | Coll n => exists l, merge os l /\ outs = [sends n (payload l)]
    end.

  (** Ordered farm: each input goes to some worker, which answers with one value; the answers
      leave in the order of the inputs.  [h i]: what worker i received. *)
  Inductive ordered_run (ws : list (skel A)) : (nat -> list A) -> list A -> list A -> Prop :=
  | or_nil : forall h,
      (forall i n, nth_error ws i = Some (Seq n) -> fin n (h i) = []) -> ordered_run ws h [] []
  | or_cons : forall h x xs i n t y ys,
      nth_error ws i = Some (Seq n) ->
      resp n (h i) x = [(t, y)] -> ordered_run ws (fupd h i (h i ++ [x])) xs ys ->
      ordered_run ws h (x :: xs) (y :: ys).

  (** The workers of an ordered farm must be standard nodes: the farm does not start otherwise
      (ff/farm.hpp:216-220, 243-248). *)
  Definition standard (s : skel A) : bool :=
    match s with Seq n => negb (nmi n) && negb (nmo n) && negb (ncomp n) | _ => false end.

  (** A stage of an all-to-all that is preceded by several nodes is connected to all of them; the
      code connects them one to one when the first set has standard nodes
      (ff/pipeline.hpp:623-646): here it is also all to all. *)
  Inductive run : skel A -> list (list (out A)) -> list (list (out A)) -> Prop :=
  | run_seq : forall n ins l, merge ins l -> run (Seq n) ins [sends n (payload l)]
  | run_pipe : forall l ins outs, runs l ins outs -> run (Pipe l) ins outs
  | run_farm : forall em ws c ins l parts oss outs,
      merge ins l -> route (map ports ws) (emission em l) parts ->
      run_all ws (map (fun p => [p]) parts) oss -> collected c (concat oss) outs ->
      run (Farm false em ws c) ins outs
  | run_ofarm : forall em ws c ins l ys outs,
      ws <> [] -> forallb standard ws = true -> merge ins l -> ordered_run ws (fun _ => []) (payload (emission em l)) ys ->
      collected (as_added c) [map (fun y => (None, y)) ys] outs ->
      run (Farm true em ws c) ins outs
  | run_a2a : forall l r ins pss mid pss' oss,
      Forall2 (route (map ports l)) ins pss -> run_all l (columns (length l) pss) mid ->
      Forall2 (route (map ports r)) (concat mid) pss' -> run_all r (columns (length r) pss') oss ->
      run (A2A l r) ins (concat oss)
  with runs : list (skel A) -> list (list (out A)) -> list (list (out A)) -> Prop :=
  | runs_nil : forall ins, runs [] ins ins
  | runs_cons : forall s l ins mid outs, run s ins mid -> runs l mid outs -> runs (s :: l) ins outs
  with run_all : list (skel A) -> list (list (list (out A))) -> list (list (list (out A))) -> Prop :=
  | ra_nil : run_all [] [] []
  | ra_cons : forall s l i is o os, run s i o -> run_all l is os -> run_all (s :: l) (i :: is) (o :: os).

  (** [behaviour p xs ys]: the pipeline with stages p, fed with xs, may deliver ys. *)
  Definition behaviour (p : list (skel A)) (xs ys : list A) : Prop :=
    exists outs l, runs p [map (fun x => (None, x)) xs] outs /\ merge outs l /\ ys = payload l.

  (** ** Conditions on the skeletons given to the optimiser *)

  Definition is_seq (s : skel A) : bool := match s with Seq _ => true | _ => false end.

  (** No node that sends out of the stage chooses the channel. *)
  Fixpoint undirected (s : skel A) : bool :=
    match s with
    | Seq n => negb (nmo n)
    | Pipe l => (fix go (l : list (skel A)) : bool :=
                   match l with [] => false | x :: r => match r with [] => undirected x | _ => go r end end) l
    | Farm true _ _ (Coll n) => negb (nmo n)
    | Farm true _ _ _ => true
    | Farm false _ ws NoColl => forallb undirected ws
    | Farm false _ _ DefColl => true
    | Farm false _ _ (Coll n) => negb (nmo n)
    | A2A _ r => forallb undirected r
    end.

  (** One node sends out of the stage, and the optimiser will not remove it. *)
  Fixpoint stable_end (s : skel A) : bool :=
    match s with
    | Seq _ => true
    | Pipe l => (fix go (l : list (skel A)) : bool :=
                   match l with [] => false | x :: r => match r with [] => stable_end x | _ => go r end end) l
    | Farm true _ _ _ => true
    | Farm false _ _ (Coll _) => true
    | _ => false
    end.

  (** What may come just before an all-to-all in a pipeline: a stage with one exit, or a farm or
      all-to-all whose last nodes are sequential. *)
  Definition before_a2a (s : skel A) : bool :=
    match s with
    | Seq _ => true
    | Pipe _ => false
    | Farm false _ ws NoColl => forallb is_seq ws
    | Farm _ _ _ _ => true
    | A2A _ r => forallb is_seq r
    end.
  (** A farm with the default collector is not followed by a node that chooses its channels. *)
  Definition pair_ok (s t : skel A) : bool :=
    match t with
    | A2A _ _ => before_a2a s
    | Seq n => match s with Farm false _ _ DefColl => negb (nmo n) | _ => true end
    | _ => true
    end.
  Fixpoint pairs_ok (l : list (skel A)) : bool :=
    match l with
    | [] => true
    | s :: r => match r with [] => true | t :: _ => pair_ok s t && pairs_ok r end
    end.
  Fixpoint wf (s : skel A) : bool :=
    match s with
    | Seq _ => true
    | Pipe l => forallb wf l && pairs_ok (flat_map flat l) && negb (length l =? 0)
    | Farm o _ ws c => forallb wf ws && match o, c with false, DefColl => forallb undirected ws | _, _ => true end
    | A2A l r => forallb wf l && forallb wf r && forallb stable_end l
    end.
End Spec.
