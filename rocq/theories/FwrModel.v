(** The feedback of a farm that runs on its own: the calls that configure a farm before run()
    (ff/farm.hpp:953-1282) and the part of ff_farm::prepare that creates the channels of workers,
    emitter and collector (ff/farm.hpp:215-560).

    Simplifications:
    - the farm is not an accelerator (has_input_channel is false) and is not inside another
      structure; add_emitter does not change the channels and is left out;
    - the workers are nodes, standard or multi-output, not compositions or parallel structures;
      fewer than max_nworkers of them; nobody gave them channels before;
    - a user collector is an object with a number; no setgt; nothing is called after run();
    - a failed assert and a return of -1 are the same outcome, [None]; memory allocation succeeds. *)
From Coq Require Import List Arith Bool.
Import ListNotations.

(** The field [collector]: the default gatherer, or object number c of the user
    (ff/farm.hpp:1153-1197). *)
Inductive coll := Gt | Usr (c : nat).

(** The calls.  [AddWorkers l]: one worker per element, [true] for a multi-output one.
    [AddCollector None] is add_collector(nullptr). *)
Inductive call :=
| AddWorkers (l : list bool)
| AddCollector (c : option nat)
| RemoveCollector
| SetOrdered
| SetLb
| WrapAround.

(** The fields of the farm, its load balancer and gatherer, and the user collectors.  [mw], [lbfb]:
    master_worker and inputNodesFeedback of the load balancer; [gtout]: buffer of the gatherer;
    [cout c], [cfb c]: out and outputNodesFeedback of collector c; [nb]: number of the next
    channel. *)
Record farm := mkFarm {
  wks : list bool;
  col : option coll;
  removed : bool;
  ordered : bool;
  mw : bool;
  lbfb : list nat;
  gtout : option nat;
  cout : nat -> option nat;
  cfb : nat -> list nat;
  nb : nat }.

(** ff_farm() (ff/farm.hpp:791-808). *)
Definition farm0 : farm :=
  mkFarm [] None false false false [] None (fun _ => None) (fun _ => []) 0.

Definition upd {T} (f : nat -> T) (x : nat) (v : T) : nat -> T := fun y => if y =? x then v else f y.

(** hasCollector (ff/farm.hpp:1281-1283). *)
Definition has_collector (f : farm) : bool :=
  if ordered f then true else match col f with Some _ => negb (removed f) | None => false end.

(** getCollector (ff/farm.hpp:1693-1696). *)
Definition get_collector (f : farm) : option nat :=
  if removed f then None else match col f with Some (Usr c) => Some c | _ => None end.

(** ff_farm::set_output_buffer (ff/farm.hpp:2104-2112); gt->set_output_buffer with no filter yet
    (ff/gt.hpp:430-442); ff_node::set_output_buffer (ff/node.hpp:765-769). *)
Definition set_output_buffer (b : nat) (f : farm) : option farm :=
  match col f, removed f with
  | None, false => None
  | _, _ =>
      match gtout f with
      | Some _ => None
      | None =>
          Some (mkFarm (wks f) (col f) (removed f) (ordered f) (mw f) (lbfb f) (Some b)
                  (match get_collector f with Some c => upd (cout f) c (Some b) | None => cout f end)
                  (cfb f) (nb f))
      end
  end.

(** wrap_around (ff/farm.hpp:1210-1250).  [mo c]: collector c is multi-output. *)
Definition wrap_around (mo : nat -> bool) (f : farm) : option farm :=
  if negb (has_collector f) then
    (* set_masterworker (ff/lb.hpp:696-703) *)
    if mw f then None
    else Some (mkFarm (wks f) (col f) (removed f) (ordered f) true (lbfb f) (gtout f) (cout f) (cfb f) (nb f))
  else
    let b := nb f in
    match set_output_buffer b f with
    | None => None
    | Some f =>
        Some (mkFarm (wks f) (col f) (removed f) (ordered f) (mw f) (lbfb f ++ [b]) (gtout f) (cout f)
                (match get_collector f with
                 | Some c => if mo c then upd (cfb f) c (cfb f c ++ [b]) else cfb f
                 | None => cfb f
                 end) (S b))
    end.

(** add_workers (ff/farm.hpp:1130-1146), add_collector (1167-1197), remove_collector (1260-1268),
    set_ordered (1100-1107), setlb (928-939): the fields of the old load balancer are moved to the
    new one by an operator that does not touch master_worker (ff/lb.hpp:500-523). *)
Definition apply (mo : nat -> bool) (a : call) (f : farm) : option farm :=
  match a with
  | AddWorkers [] => None
  | AddWorkers l => Some (mkFarm (wks f ++ l) (col f) (removed f) (ordered f) (mw f) (lbfb f) (gtout f) (cout f) (cfb f) (nb f))
  | AddCollector c =>
      match col f, removed f with
      | Some (Usr _), false => None
      | _, _ =>
          Some (mkFarm (wks f) (Some (match c with Some c => Usr c | None => Gt end)) false (ordered f) (mw f)
                  (lbfb f) (gtout f) (cout f) (cfb f) (nb f))
      end
  | RemoveCollector =>
      Some (if ordered f
            then mkFarm (wks f) (Some Gt) (removed f) (ordered f) (mw f) (lbfb f) (gtout f) (cout f) (cfb f) (nb f)
            else mkFarm (wks f) (col f) true (ordered f) (mw f) (lbfb f) (gtout f) (cout f) (cfb f) (nb f))
  | SetOrdered => Some (mkFarm (wks f) (col f) (removed f) true (mw f) (lbfb f) (gtout f) (cout f) (cfb f) (nb f))
  | SetLb => Some (mkFarm (wks f) (col f) (removed f) (ordered f) false (lbfb f) (gtout f) (cout f) (cfb f) (nb f))
  | WrapAround => wrap_around mo f
  end.

Fixpoint configure (mo : nat -> bool) (l : list call) (f : farm) : option farm :=
  match l with
  | [] => Some f
  | a :: r => match apply mo a f with Some f' => configure mo r f' | None => None end
  end.

(** The channels of a worker: its input, its pointer [out], and for a multi-output worker the list
    outputNodesFeedback followed by outputNodes (ff/multinode.hpp:494-503). *)
Record wchan := mkW { w_mo : bool; w_in : nat; w_out : option nat; w_list : list nat }.

(** One round of the loop of prepare (ff/farm.hpp:288-488), with create_feedback_buffers
    (ff/farm.hpp:398-416) for a worker that is one node: get_out_nodes gives the worker itself
    (ff/node.hpp:1079, ff/multinode.hpp:648-657), and set_output_feedback fails for a standard
    one.  [m]: master_worker; [c]: collector && !collector_removed.  Also: the channel that the
    gatherer reads. *)
Definition prep_worker (m c : bool) (n : nat) (w : bool) : option (wchan * option nat * nat) :=
  let i := n in
  let n := S n in
  if w then
    let '(out, fb, n) := if m then (Some n, [n], S n) else (None, [], n) in
    if c then Some (mkW w i out (fb ++ [n]), Some n, S n) else Some (mkW w i out fb, None, n)
  else
    if c then
      if m then None                                           (* assert(!lb->masterworker()), 454 *)
      else Some (mkW w i (Some n) [], Some n, S n)
    else if m then Some (mkW w i (Some n) [], None, S n) else Some (mkW w i None [], None, n).

Fixpoint prep_workers (m c : bool) (n : nat) (l : list bool) : option (list wchan * list nat) :=
  match l with
  | [] => Some ([], [])
  | w :: r =>
      match prep_worker m c n w with
      | None => None
      | Some (x, g, n') =>
          match prep_workers m c n' r with
          | None => None
          | Some (xs, gs) => Some (x :: xs, (match g with Some b => [b] | None => [] end) ++ gs)
          end
      end
  end.

(** The running farm: the workers, the channels that the emitter reads (ff/lb.hpp:986-1017: the
    workers' [out] if master_worker is set, then inputNodesFeedback), those that the collector
    reads, and those that it writes; [None]: it pushes through the null pointer [out]. *)
Record net := mkNet {
  workers : list wchan;
  emitter_in : list nat;
  collector_in : list nat;
  collector_out : option (list nat) }.

Definition olist {T} (o : option T) : list T := match o with Some x => [x] | None => [] end.

(** What the collector's thread writes to (ff/gt.hpp:572-578, 645-647, 663, 691-692; push, 226-262,
    uses the collector's own [out] as soon as there is a user collector).  A multi-output collector
    writes to its own list (ff/multinode.hpp:494-503). *)
Definition coll_out (mo : nat -> bool) (f : farm) : option (list nat) :=
  if removed f then Some []
  else match col f with
       | None => Some []
       | Some Gt => Some (olist (gtout f))
       | Some (Usr c) =>
           if mo c then Some (cfb f c)
           else match cout f c with
                | Some b => Some [b]
                | None => match gtout f with Some _ => None | None => Some [] end
                end
       end.

(** prepare (ff/farm.hpp:215-560).  With [ordered] the workers must be standard and a new load
    balancer is installed with setlb (238-271). *)
Definition prepare (mo : nat -> bool) (f : farm) : option net :=
  match wks f with
  | [] => None
  | _ =>
      if ordered f && existsb (fun w => w) (wks f) then None
      else
        let m := if ordered f then false else mw f in
        let c := match col f with Some _ => negb (removed f) | None => false end in
        match prep_workers m c (nb f) (wks f) with
        | None => None
        | Some (ws, g) =>
            Some (mkNet ws ((if m then flat_map (fun w => olist (w_out w)) ws else []) ++ lbfb f) g (coll_out mo f))
        end
  end.

(** The calls, then run(). *)
Definition run (mo : nat -> bool) (l : list call) : option net :=
  match configure mo l farm0 with Some f => prepare mo f | None => None end.

(** The channels that a worker's thread writes to: a standard worker writes [out]. *)
Definition worker_out (w : wchan) : list nat := if w_mo w then w_list w else olist (w_out w).
