(** Model of what a multi-input node is told about the channel a message came from:
    get_channel_id(), fromInput() and the argument of eosnotify.  ff/multinode.hpp:101-112
    (registration of the channels), ff/gt.hpp:134-139 (selectworker), 197-218 (gather_task),
    563-675 (svc).

    Messages, marks and the answers of svc are those of GatherModel.  As there, the channels hold what
    they will still deliver and a poll says whether the next message is already visible.  New here:
    feedback channels, the channel number, the first call without a task (skipfirstpop) and eosnotify.
    Not modelled: output, waiting, all_gather (which changes the channel number, C61). *)
From Coq Require Import List Arith Bool ZArith.
From Verif Require Import Base GatherModel.
Import ListNotations.

(** The program registers channels in any order: set_input (multinode.hpp:275-293),
    set_input_feedback (295-298). *)
Inductive reg (C : Type) := RegIn (c : C) | RegFb (c : C).
Arguments RegIn {C}. Arguments RegFb {C}.

(** inputNodes and inputNodesFeedback. *)
Definition ins {C} (l : list (reg C)) : list C :=
  flat_map (fun r => match r with RegIn c => [c] | RegFb _ => [] end) l.
Definition fbs {C} (l : list (reg C)) : list C :=
  flat_map (fun r => match r with RegFb c => [c] | RegIn _ => [] end) l.

(** dryrun, multinode.hpp:101-112: the feedback channels are registered with the gatherer first;
    feedbackid is their number (gt.hpp: set_feedbackid_threshold; 0 otherwise, line 323). *)
Definition workers {C} (l : list (reg C)) : list C := fbs l ++ ins l.
Definition feedbackid {C} (l : list (reg C)) : nat := length (fbs l).

(** A call of the user's methods with what get_channel_id() and fromInput() return inside it. *)
Inductive ucall (A : Type) :=
| CSvc (task : option A) (id : Z) (fromin : bool)
| CEos (arg : Z) (id : Z) (fromin : bool).
Arguments CSvc {A}. Arguments CEos {A}.

Section Min.
  Context {A B St : Type}.
  Variable n : nat.                     (* running: the number of registered channels *)
  Variable f : nat.                     (* feedbackid *)
  Variable each : bool.                 (* notify_each_eos, gt.hpp:583 *)
  Variable svc : St -> option A -> Z -> bool -> St * fres B.
  Variable eosn : St -> Z -> Z -> bool -> St.

  (** Fields of ff_gatherer and local variables of svc.  [nextr] is -1 at construction (line 322). *)
  Record mst := mkM {
    nextr : Z; offline : list bool; neos : nat; neosnf : nat; ret : mark; skip : bool;
    ust : St; chans : list (list (msg A)); calls : list (ucall A); stop : option result }.

  (** channelid and frominput, lines 595-602. *)
  Definition chid (r : Z) : Z * bool :=
    if (0 <? f) && (r <? Z.of_nat f)%Z then (r, false) else ((r - Z.of_nat f)%Z, true).

  (** Lines 655-660 and 672-674: eosnotify() without argument when it was not called before. *)
  Definition finish (s : mst) (r : result) : mst :=
    let (u, cl) :=
      match r, each with
      | RMark Eos, false => let (i, b) := chid (nextr s) in (eosn (ust s) (-1) i b, calls s ++ [CEos (-1) i b])
      | _, _ => (ust s, calls s)
      end in
    mkM (nextr s) (offline s) (if n <=? neos s then 0 else neos s) (if n <=? neosnf s then 0 else neosnf s)
        (ret s) (skip s) u (chans s) cl
        (Some (match r with RMark EosW => RMark Eos | _ => r end)).

  (** Line 652. *)
  Definition loop (s : mst) : mst :=
    if (neos s <? n) && (neosnf s <? n) then s else finish s (RMark (ret s)).

  (** svc of the user on a task (or without one, line 592) and what its answer leads to, lines 621-645. *)
  Definition call (s : mst) (t : option A) : mst :=
    let (i, b) := chid (nextr s) in
    let (u, r) := svc (ust s) t i b in
    let s := mkM (nextr s) (offline s) (neos s) (neosnf s) (ret s) (skip s) u (chans s)
                 (calls s ++ [CSvc t i b]) None in
    match r with
    | FGoOn | FOut _ => loop s
    | FGoOut => finish s RGoOut
    | FMark Eos | FNull => finish s (RMark Eos)
    | FMark k => finish s (RMark k)
    end.

  (** A mark of channel [r], lines 604-616. *)
  Definition ended (s : mst) (r : nat) (k : mark) : mst :=
    let (i, b) := chid (Z.of_nat r) in
    let (u, cl) := if each then (eosn (ust s) i i b, calls s ++ [CEos i i b]) else (ust s, calls s) in
    loop (mkM (nextr s) (lupd (offline s) r true)
              (match k with EosNF => neos s | _ => S (neos s) end)
              (match k with EosNF => S (neosnf s) | _ => neosnf s end)
              k (skip s) u (chans s) cl None).

  (** One iteration of the loop of svc (lines 588-652), or one failed get of gather_task. *)
  Definition step (s : mst) (a : act) : option mst :=
    let 'Poll v := a in
    match stop s with
    | Some _ => None
    | None =>
        if skip s then
          Some (call (mkM (nextr s) (offline s) (neos s) (neosnf s) (ret s) false (ust s) (chans s) (calls s) None) None)
        else
          match select n n (Z.to_nat ((nextr s + Z.of_nat n) mod Z.of_nat n)) (offline s) with
          | None => None
          | Some i =>
              let got q := mkM (Z.of_nat i) (offline s) (neos s) (neosnf s) (ret s) false (ust s) q (calls s) None in
              match v, nth i (chans s) [] with
              | true, m :: q =>
                  let s' := got (lupd (chans s) i q) in
                  match m with
                  | GoOn => Some (loop s')
                  | Mark k => Some (ended s' i k)
                  | Task x => Some (call s' (Some x))
                  end
              | _, _ => Some (got (chans s))
              end
          end
    end.

  (** Start of a run: svc_init clears offline (line 547).  [r], [ne], [nf]: nextr and the counters left by
      the previous run; -1, 0 and 0 at construction (lines 322-323). *)
  Definition start (r : Z) (ne nf : nat) (sk : bool) (u : St) (cs : list (list (msg A))) : mst :=
    mkM r (repeat false n) ne nf Eos sk u cs [] None.
End Min.
Arguments mst : clear implicits.
