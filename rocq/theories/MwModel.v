(** A farm with feedback and no collector (master-worker): ff/farm.hpp:1210-1215 (wrap_around:
    set_masterworker, skipfirstpop when the farm has no input stream), ff/farm.hpp:444-455 (one
    output channel per worker, unbounded in a master-worker, read back by the emitter), with the
    emitter's loop of ff/lb.hpp:985-1100.  Node 0 is the emitter, node w+1 the worker w.  Channel
    w goes from the emitter to worker w (capacity [cp]); channel n+w goes back, unbounded.
    Simplification: a worker returns one result per task (it could send several). *)
From Coq Require Import List Arith.
From Verif Require Import NetModel.
Import ListNotations.

Section Mw.
  Context {X St : Type}.
  (** [n] workers; initial states; what the emitter sends in its first call svc(NULL), and for a
      result x coming back on channel c; the result of worker w for a task. *)
  Variables (n : nat) (cp : option nat) (u0 : nat -> St) (first : list (list (req X)))
            (emit : St -> nat -> X -> St * list (list (req X)) * bool) (wk : nat -> St -> X -> St * X).

  Definition mw_chans : list chan :=
    map (fun w => mkChan 0 (S w) cp) (seq 0 n) ++ map (fun w => mkChan (S w) 0 None) (seq 0 n).

  Definition mw_net : net X St :=
    mkNet (S n) mw_chans u0
      (fun v => match v with 0 => first | S _ => [] end)
      (fun v u c x => match v with
                      | 0 => emit u c x
                      | S w => let (u', y) := wk w u x in (u', [[To 0 (Item y)]], false)
                      end)
      (fun _ u _ => (u, [])).
End Mw.
