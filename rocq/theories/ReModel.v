(** Running a network again and again: run_then_freeze, ff/pipeline.hpp:1290-1306,
    ff/farm.hpp:1436-1458, and the loop of a thread, ff/node.hpp:257-296.  At the end of a run a
    thread calls svc_end and freezes; when thawed it calls svc_init and starts its loop again, on
    the same channels and with the same node object.

    - A state is a state of the network ([base], NetModel) plus the number of runs each thread has
      begun.  Inside a run a thread does the steps of NetModel.
    - [reboot v u]: what svc_end, svc_init and the first call of svc (a node that skips its first
      pop: svc(NULL)) do when node v is in state u: new state, values sent.  For the first run
      only svc_init and the first call.
    - The user asks for [K] runs.  A thread may begin its next run as soon as its last one ended,
      although other threads are still in the previous run: thaw releases the threads one after
      the other (ff/pipeline.hpp:1594, ff/lb.hpp:1398-1402), and a thread thawed before it reached
      its freezing point does not sleep (ff/node.hpp:423-427).  So this contains the executions
      where the user calls wait_freezing between two runs, and those where they do not.
    - That a thaw releases each thread exactly once is property C21.
    - Not modelled: running with fewer workers the next time (nw), EOS_NOFREEZE. *)
From Coq Require Import List Arith Bool.
From Verif Require Import Base NetModel.
Import ListNotations.

Section Model.
  Context {X St : Type}.
  Variables (n : nat) (chs : list chan) (first : nat -> St)
            (reboot : nat -> St -> St * list (list (req X)))
            (svc0 : nat -> St -> nat -> X -> St * list (list (req X)) * bool)
            (eosn0 : nat -> St -> nat -> St * list (list (req X))).

  (** The network of one run that begins with the nodes in states [f]. *)
  Definition NR (f : nat -> St) : net X St :=
    mkNet n chs (fun v => fst (reboot v (f v))) (fun v => snd (reboot v (f v))) svc0 eosn0.

  Record mst := mkM {
    base : st X St;
    run : nat -> nat }.           (* number of the run each thread is in, from 0 *)

  Inductive mact :=
  | Act (a : act)                 (* a step inside a run *)
  | Again (v : nat).              (* thread v begins its next run *)

  Definition m_init : mst := mkM (init_st (NR first)) (fun _ => 0).

  Variable K : nat.               (* number of runs asked for *)

  Definition mstep (s : mst) (a : mact) : option mst :=
    match a with
    | Act b => option_map (fun t => mkM t (run s)) (step (NR first) (base s) b)
    | Again v =>
        let t := base s in
        match ph (nd t v) with
        | Done => if (v <? n) && (S (run s v) <? K) then
                    Some (mkM (mkSt (q t) (fupd (nd t) v (init_node (NR (fun w => ust (nd t w))) v)) (hs t) (hl t) (hp t))
                              (fupd (run s) v (S (run s v))))
                  else None
        | _ => None
        end
    end.
End Model.
Arguments mst : clear implicits.
