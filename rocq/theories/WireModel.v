(** The channels that run() creates between the threads of a pipeline: ff_pipeline::prepare
    (ff/pipeline.hpp:427-770), ff_farm::prepare (ff/farm.hpp:215-560), ff_a2a::prepare
    (ff/all2all.hpp:83-350) and the functions they call on nodes (ff/node.hpp:717-795,
    ff/multinode.hpp:83-105, 276-295, 481-492, 620-660; ff/farm.hpp:1728-1755, 1994-2125;
    ff/all2all.hpp:660-690, 800-850).

    Simplifications:
    - a pipeline is a list of stages that are nodes, farms of nodes or all-to-alls of nodes; no
      pipeline inside a pipeline, no farm inside a farm, no feedback (wrap_around), no
      accelerator; a composition of nodes is one node with the input side of its first and the
      output side of its last node (ff/combine.hpp:240-330);
    - the workers of a farm, and the nodes of each set of an all-to-all, are of the same kind, as
      the comments in the code assume (ff/pipeline.hpp:464, ff/all2all.hpp:240);
    - a failed assert and a return of -1 are the same outcome, [None];
    - the transformers that the all-to-all puts around standard nodes (ff/all2all.hpp:247-290)
      are the node they contain; the condition variables of the blocking mode are left out;
    - memory allocation succeeds and capacities are positive. *)
From Coq Require Import List Arith Bool.
Import ListNotations.

(** isMultiInput and isMultiOutput of a node (ff/node.hpp:1088-1091, ff/multinode.hpp). *)
Record kind := mkKind { mi : bool; mo : bool }.

(** The collector of a farm: absent, the default gatherer (add_collector(nullptr)), or a node of
    the user (ff/farm.hpp:1129-1160). *)
Inductive coll := NoColl | DefColl | UsrColl (k : kind).

Inductive stage :=
| SNode (k : kind)
| SFarm (n : nat) (kw : kind) (c : coll) (ordered : bool)
| SA2A (n1 : nat) (k1 : kind) (n2 : nat) (k2 : kind).

(** The parts of a stage.  [Self]: a node; [Em], [Wk j], [Co]: emitter, workers and collector of
    a farm; [Lw j], [Rw j]: first and second set of an all-to-all; [Obj]: the farm or all-to-all
    object itself, which is not a thread but has an output buffer and a list of output nodes. *)
Inductive role := Self | Em | Wk (j : nat) | Co | Lw (j : nat) | Rw (j : nat) | Obj.
Definition id : Type := nat * role.

Definition role_eqb (a b : role) : bool :=
  match a, b with
  | Self, Self | Em, Em | Co, Co | Obj, Obj => true
  | Wk i, Wk j | Lw i, Lw j | Rw i, Rw j => i =? j
  | _, _ => false
  end.
Definition id_eqb (a b : id) : bool := (fst a =? fst b) && role_eqb (snd a) (snd b).

(** An entry of a list of input or output nodes: a node, or a buffer node created for one
    connection (ff_buffernode, ff/node.hpp:1745-1800: its input and output are the same channel). *)
Inductive ref := Nref (x : id) | Bref (b : nat).

(** Channels are numbered in order of creation.  [nin], [nout]: the pointers [in] and [out] of a
    node (ff/node.hpp:1250); [inN], [outN]: its lists inputNodes and outputNodes. *)
Record heap := mkHeap {
  nb : nat;
  nin : id -> option nat;
  nout : id -> option nat;
  inN : id -> list ref;
  outN : id -> list ref }.

Definition heap0 : heap := mkHeap 0 (fun _ => None) (fun _ => None) (fun _ => []) (fun _ => []).

Definition upd {T} (f : id -> T) (x : id) (v : T) : id -> T := fun y => if id_eqb x y then v else f y.

Definition set_nin (x : id) (b : option nat) (h : heap) : heap :=
  mkHeap (nb h) (upd (nin h) x b) (nout h) (inN h) (outN h).
Definition set_nout (x : id) (b : option nat) (h : heap) : heap :=
  mkHeap (nb h) (nin h) (upd (nout h) x b) (inN h) (outN h).
Definition add_in (x : id) (r : list ref) (h : heap) : heap :=
  mkHeap (nb h) (nin h) (nout h) (upd (inN h) x (inN h x ++ r)) (outN h).
Definition add_out (x : id) (r : list ref) (h : heap) : heap :=
  mkHeap (nb h) (nin h) (nout h) (inN h) (upd (outN h) x (outN h x ++ r)).
Definition alloc (h : heap) : heap := mkHeap (S (nb h)) (nin h) (nout h) (inN h) (outN h).

(** get_in_buffer, get_out_buffer of an entry (ff/node.hpp:1164-1173, 1761-1777). *)
Definition refin (h : heap) (r : ref) : option nat := match r with Nref x => nin h x | Bref b => Some b end.
Definition refout (h : heap) (r : ref) : option nat := match r with Nref x => nout h x | Bref b => Some b end.

(** Loops of the code whose body may fail. *)
Fixpoint iter {A} (f : A -> heap -> option heap) (l : list A) (h : heap) : option heap :=
  match l with
  | [] => Some h
  | a :: r => match f a h with Some h' => iter f r h' | None => None end
  end.

(** create_input_buffer of a node (ff/node.hpp:717-725) and of a multi-input node, which makes a
    buffer node (ff/multinode.hpp:83-91). *)
Definition create_in (m : bool) (x : id) (h : heap) : option heap :=
  match nin h x with
  | Some _ => None
  | None => let b := nb h in
            let h := set_nin x (Some b) (alloc h) in
            Some (if m then add_in x [Bref b] h else h)
  end.
(** create_output_buffer of a node that is not multi-output (ff/node.hpp:744-752). *)
Definition create_out (x : id) (h : heap) : option heap :=
  match nout h x with
  | Some _ => None
  | None => Some (set_nout x (Some (nb h)) (alloc h))
  end.
(** A buffer node from x to y: new ff_buffernode; x->set_output(t); y->set_input(t). *)
Definition new_edge (y x : id) (h : heap) : option heap :=
  let b := nb h in Some (add_in y [Bref b] (add_out x [Bref b] (alloc h))).
(** The same for all pairs, the consumers in the outer loop (ff/pipeline.hpp:722-730,
    ff/all2all.hpp:306-314). *)
Definition cross (xs ys : list id) (h : heap) : option heap :=
  iter (fun y => iter (new_edge y) xs) ys h.

Definition wk (i n : nat) : list id := map (fun j => (i, Wk j)) (seq 0 n).
Definition lw (i n : nat) : list id := map (fun j => (i, Lw j)) (seq 0 n).
Definition rw (i n : nat) : list id := map (fun j => (i, Rw j)) (seq 0 n).

(** isMultiInput, isMultiOutput, hasCollector of a stage (ff/farm.hpp:190-213, 1105-1127;
    ff/all2all.hpp:796-798). *)
Definition multi_in (s : stage) : bool := match s with SNode k => mi k | _ => true end.
Definition multi_out (s : stage) : bool :=
  match s with
  | SNode k => mo k
  | SFarm _ _ NoColl _ => true
  | SFarm _ _ DefColl _ => false
  | SFarm _ _ (UsrColl k) _ => mo k
  | SA2A _ _ _ _ => true
  end.
Definition has_coll (s : stage) : bool :=
  match s with SFarm _ _ c o => o || match c with NoColl => false | _ => true end | _ => false end.
Definition is_a2a (s : stage) : bool := match s with SA2A _ _ _ _ => true | _ => false end.
Definition is_farm (s : stage) : bool := match s with SFarm _ _ _ _ => true | _ => false end.

(** get_out_nodes before anything is connected (ff/farm.hpp:1728-1745, ff/all2all.hpp:672-682,
    ff/node.hpp:1079, ff/multinode.hpp:648-657); get_in_nodes for an all-to-all. *)
Definition out_nodes (i : nat) (s : stage) : list id :=
  match s with
  | SNode _ => [(i, Self)]
  | SFarm n _ NoColl _ => wk i n
  | SFarm _ _ _ _ => [(i, Co)]
  | SA2A _ _ n2 _ => rw i n2
  end.
(** isMultiOutput of those nodes; homogeneous. *)
Definition out_mo (s : stage) : bool :=
  match s with
  | SNode k => mo k
  | SFarm _ kw NoColl _ => mo kw
  | SFarm _ _ DefColl _ => false
  | SFarm _ _ (UsrColl k) _ => mo k
  | SA2A _ _ _ k2 => mo k2
  end.

(** ff/pipeline.hpp:428-480. *)
Definition farm_nocoll (s : stage) : bool :=
  match s with SFarm _ _ _ o => negb o && negb (has_coll s) | _ => false end.
Definition p_ss (s : stage) : bool := negb (multi_out s).
Definition p_sm (s : stage) : bool :=
  (multi_out s && negb (is_a2a s) && negb (is_farm s)) || (has_coll s && multi_out s).
Definition p_ms (s : stage) : bool := (farm_nocoll s || is_a2a s) && negb (out_mo s).
Definition p_mm (s : stage) : bool := (farm_nocoll s || is_a2a s) && out_mo s.

(** set_output_buffer of the previous stage (ff/node.hpp:764-768, ff/farm.hpp:2103-2111). *)
Definition stage_set_output_buffer (i : nat) (s : stage) (b : option nat) (h : heap) : option heap :=
  match s with
  | SNode _ => Some (set_nout (i, Self) b h)
  | SFarm _ _ NoColl _ => None
  | SFarm _ _ _ _ => Some (set_nout (i, Co) b h)
  | SA2A _ _ _ _ => Some (set_nout (i, Obj) b h)
  end.
(** create_output_buffer of the previous stage (ff/farm.hpp:1994-2027, ff/all2all.hpp:806-835);
    the caller has checked that the producers are not multi-output. *)
Definition stage_create_output (i : nat) (s : stage) (h : heap) : option heap :=
  match s with
  | SNode _ => create_out (i, Self) h
  | SFarm n _ _ _ =>
      if has_coll s
      then match create_out (i, Obj) h with
           | Some h' => Some (set_nout (i, Co) (nout h' (i, Obj)) h')
           | None => None
           end
      else iter create_out (wk i n) h
  | SA2A _ _ n2 _ => iter create_out (rw i n2) h
  end.
(** set_output of the previous stage (ff/multinode.hpp:620-636, ff/farm.hpp:2050-2083,
    ff/all2all.hpp:660-668); -1 is [None]. *)
Definition stage_set_output (i : nat) (s : stage) (r : list ref) (h : heap) : option heap :=
  match s with
  | SNode _ => Some (add_out (i, Self) r h)
  | SFarm n _ NoColl _ =>
      if n <? length (outN h (i, Obj)) + length r then None else Some (add_out (i, Obj) r h)
  | SFarm _ _ DefColl _ => None
  | SFarm _ _ (UsrColl k) _ => if mo k then Some (add_out (i, Co) r h) else None
  | SA2A _ _ _ _ => Some (add_out (i, Obj) r h)
  end.
(** A call of set_output whose result the caller ignores. *)
Definition ignore (o : option heap) (h : heap) : option heap := match o with Some h' => Some h' | None => Some h end.

(** The entry that stands for the whole previous stage in the list of a consumer: the node, or the
    farm object (ff/pipeline.hpp:522). *)
Definition stage_ref (i : nat) (s : stage) : ref :=
  match s with SNode _ => Nref (i, Self) | _ => Nref (i, Obj) end.

(** The node of a stage that receives its input, and the first set of an all-to-all
    (set_input: ff/multinode.hpp:276-293, ff/farm.hpp:2038-2044). *)
Definition in_node (i : nat) (s : stage) : id := match s with SNode _ => (i, Self) | _ => (i, Em) end.

Definition bind (o : option heap) (f : heap -> option heap) : option heap :=
  match o with Some h => f h | None => None end.

(** x_j->set_output(y_j), or x_j->set_output_buffer(y_j->get_in_buffer()), ff/pipeline.hpp:628-634. *)
Definition join (m : bool) (xy : id * id) (h : heap) : option heap :=
  Some (if m then add_out (fst xy) [Nref (snd xy)] h else set_nout (fst xy) (nin h (snd xy)) h).

(** One iteration of the loop of ff_pipeline::prepare: stage [p], of index i, and stage [c], of
    index i+1 (ff/pipeline.hpp:484-760). *)
Definition connect (i : nat) (p c : stage) (h : heap) : option heap :=
  match c with
  | SA2A n1 k1 _ _ =>
      if mi k1 then                                        (* curr_multi_multiinput, 655-730 *)
        if p_ss p then
          if 1 <? n1 then None
          else bind (iter (create_in true) (lw (S i) n1) h)
                 (fun h => stage_set_output_buffer i p (nin h (S i, Lw 0)) h)
        else if p_sm p then
          iter (fun y h => let b := nb h in
                  let h := add_in y [Bref b] (alloc h) in
                  ignore (stage_set_output i p [Bref b] h) h) (lw (S i) n1) h
        else if p_ms p then
          if length (out_nodes i p) =? n1 then
            bind (stage_create_output i p h)
              (fun h => iter (fun xy h => Some (add_in (snd xy) [Nref (fst xy)] h))
                          (combine (out_nodes i p) (lw (S i) n1)) h)
          else None
        else cross (out_nodes i p) (lw (S i) n1) h
      else                                                 (* curr_multi_standard, 582-653 *)
        if p_ss p then
          if 1 <? n1 then None
          else bind (iter (create_in false) (lw (S i) n1) h)
                 (fun h => stage_set_output_buffer i p (nin h (S i, Lw 0)) h)
        else if p_sm p then
          bind (iter (create_in false) (lw (S i) n1) h)
            (fun h => stage_set_output i p (map Nref (lw (S i) n1)) h)
        else
          if length (out_nodes i p) =? n1 then
            bind (iter (create_in false) (lw (S i) n1) h)
              (iter (join (out_mo p)) (combine (out_nodes i p) (lw (S i) n1)))
          else None
  | _ =>
      let y := in_node (S i) c in
      if multi_in c then                                   (* curr_single_multiinput, 519-580 *)
        if p_ss p then
          bind (stage_create_output i p h) (fun h => Some (add_in y [stage_ref i p] h))
        else if p_sm p then
          let b := nb h in
          bind (ignore (stage_set_output i p [Bref b] (alloc h)) (alloc h)) (fun h => Some (add_in y [Bref b] h))
        else if p_ms p then
          bind (stage_create_output i p h) (fun h => Some (add_in y (map Nref (out_nodes i p)) h))
        else cross (out_nodes i p) [y] h
      else                                                 (* curr_single_standard, 484-517 *)
        bind (create_in false y h) (fun h =>
        if p_ss p then stage_set_output_buffer i p (nin h y) h
        else if p_sm p then ignore (stage_set_output i p [Nref y] h) h
        else if 1 <? length (out_nodes i p) then None
             else ignore (stage_set_output i p [Nref y] h) h)
  end.

(** One iteration of the loop over the workers in ff_farm::prepare (ff/farm.hpp:287-497).  The
    emitter's list of workers (lb->register_worker) is its [outN], the gatherer's list is the
    [inN] of the collector.  set_output(w) of a multi-output worker: ff/multinode.hpp:620-626. *)
Definition prep_worker (i n : nat) (kw : kind) (c : coll) (j : nat) (h : heap) : option heap :=
  let x := (i, Wk j) in
  bind (create_in (mi kw) x h) (fun h =>
  let h := add_out (i, Em) [Nref x] h in
  match c with
  | NoColl =>
      match nout h x, outN h (i, Obj) with
      | Some _, _ | None, [] => Some h
      | None, os =>
          if mo kw then Some (add_out x os h)
          else if length os =? n then Some (set_nout x (match nth_error os j with Some r => refin h r | None => None end) h)
          else None
      end
  | _ =>
      match nout h x with
      | Some _ => Some h
      | None =>
          if mo kw then new_edge (i, Co) x h
          else bind (create_out x h) (fun h => Some (add_in (i, Co) [Nref x] h))
      end
  end).

(** The part of run() that prepares the inside of a stage (ff/pipeline.hpp:775-800 calls prepare
    of every stage through run). *)
Definition prep (i : nat) (s : stage) (h : heap) : option heap :=
  match s with
  | SNode _ => Some h
  | SFarm n kw c o =>
      if (n =? 0) || (o && (mi kw || mo kw)) then None       (* ff/farm.hpp:217-248 *)
      else iter (prep_worker i n kw c) (seq 0 n) h
  | SA2A n1 k1 n2 k2 =>
      if (n1 =? 0) || (n2 =? 0) || (mi k1 && negb (mo k1)) || (mo k2 && negb (mi k2)) then None
                                                             (* ff/all2all.hpp:239-287 *)
      else bind (cross (lw i n1) (rw i n2) h) (fun h =>       (* 300-315 *)
           match outN h (i, Obj) with
           | [] => Some h
           | os => if (length os =? n2) && negb (mo k2)       (* 317-341 *)
                   then iter (fun xr h => Some (set_nout (fst xr) (refin h (snd xr)) h)) (combine (rw i n2) os) h
                   else None
           end)
  end.

(** ff_pipeline::prepare, then the stages' prepare. *)
Fixpoint connect_all (i : nat) (p : stage) (l : list stage) (h : heap) : option heap :=
  match l with
  | [] => Some h
  | c :: l' => bind (connect i p c h) (connect_all (S i) c l')
  end.
Fixpoint prep_all (i : nat) (l : list stage) (h : heap) : option heap :=
  match l with
  | [] => Some h
  | s :: l' => bind (prep i s h) (prep_all (S i) l')
  end.
(** A farm or an all-to-all without workers is never connected (get_out_nodes(w); w[0] of an empty
    vector, ff/pipeline.hpp:464; assert(w1.size()>0), 438). *)
Definition populated (s : stage) : bool :=
  match s with SNode _ => true | SFarm n _ _ _ => 0 <? n | SA2A n1 _ n2 _ => (0 <? n1) && (0 <? n2) end.
Definition wire (l : list stage) : option heap :=
  match l with
  | [] => None                                               (* ff/pipeline.hpp:1290: "pipe with no stages" *)
  | s :: l' => if forallb populated l then bind (connect_all 0 s l' heap0) (prep_all 0 l) else None
  end.

(** ** What the threads use *)

(** The channel or channels in the input (output) position of a node: a node that is not
    multi-input reads [in] (ff/node.hpp:1448); a multi-input node and the emitter read the outputs
    of their input nodes (ff/gt.hpp:187-217, ff/lb.hpp:300-330); a multi-output node writes the
    inputs of its output nodes (ff/lb.hpp:237-293). *)
Definition olist (o : option nat) : list (option nat) := match o with Some b => [Some b] | None => [] end.
Definition reads (m : bool) (h : heap) (x : id) : list (option nat) :=
  if m then map (refout h) (inN h x) else olist (nin h x).
Definition writes (m : bool) (h : heap) (x : id) : list (option nat) :=
  if m then map (refin h) (outN h x) else olist (nout h x).

Definition in_kind (s : stage) (r : role) : bool :=
  match s, r with
  | SNode k, _ => mi k
  | SFarm _ kw _ _, Wk _ => mi kw
  | SA2A _ k1 _ _, Lw _ => mi k1
  | _, _ => true
  end.
Definition out_kind (s : stage) (r : role) : bool :=
  match s, r with
  | SNode k, _ => mo k
  | SFarm _ kw _ _, Wk _ => mo kw
  | SFarm _ _ c _, Co => match c with UsrColl k => mo k | _ => false end
  | SA2A _ _ _ k2, Rw _ => mo k2
  | _, _ => true
  end.

(** The channels that thread x of stage s reads, in the order of its input numbers, and those that
    it writes, in the order of its output numbers.  [None] in the list is a null pointer. *)
Definition inputs (s : stage) (h : heap) (x : id) : list (option nat) := reads (in_kind s (snd x)) h x.
Definition outputs (s : stage) (h : heap) (x : id) : list (option nat) := writes (out_kind s (snd x)) h x.
