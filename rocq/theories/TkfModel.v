(** The task farm ff_taskf, run any number of times (ff/taskf.hpp): the user's thread, the scheduler
    thread, the workers, and the freezing and thawing of their threads (ff/node.hpp:248-310,
    403-438).

    Simplifications:
    - a task is a number, the n-th AddTask submits task n (that the ring of task descriptors is
      large enough is C34); channels are FIFO lists (C01, C07): the input channel and the channels
      back to the scheduler are unbounded (FF_FIXED_SIZE is false, ff/config.hpp:113; feedback
      channels always are, ff/farm.hpp:398-416), those to the workers have any capacity;
    - the scheduler may read its channels in any order and send a task to any running worker whose
      channel has room: round robin and on demand are particular cases (ff/lb.hpp:161, 235-291,
      306-360);
    - the part of thread_routine between lock and unlock is one step (ff/node.hpp:276-290), and so
      are thaw and the test of wait_freezing; a worker reads an end mark and forwards it in one step,
      and runs a task and sends it back in one step;
    - svc_init does not fail; the constructor has ended: all the threads sleep and the channels are
      empty (ff/taskf.hpp:127-141, where wait_freezing waits for every thread). *)
From Coq Require Import List Arith Bool.
Import ListNotations.

Inductive msg := Tsk (t : nat) | Eos | GoOut.

(** A worker: asleep in pthread_cond_wait; in its loop; running a task; after its loop
    (ff/node.hpp:1420-1500, ff/taskf.hpp:64-67). *)
Inductive wpc := WSleep | WRun | WHas (t : nat) | WEnd.
(** [fz]: freezing is 2, a thaw is pending (otherwise it is 1); [wq]: its input; [fb]: its output. *)
Record worker := mkW { pc : wpc; fz : bool; wq : list msg; fb : list msg }.
Definition worker0 : worker := mkW WSleep false [] [].

(** The scheduler: asleep; in the loop of ff_loadbalancer::svc; sending a task; inside
    broadcast_task; after the loop; undefined behaviour. *)
Inductive lpc := LSleep | LRun | LSend (t : nat) | LCast (m : msg) (todo retry : list nat) | LEnd | LUb.

(** One use of the farm.  [early]: run(), then [k] times AddTask, then wait(); otherwise [k] times
    AddTask, then run_then_freeze(nw), where [nw = 0] stands for the default (-1). *)
Record round := mkRound { early : bool; k : nat; nw : nat }.

(** Where the user's thread is: before AddTask number j of this round or before the end mark; before
    the thaw of the scheduler, of worker i; in wait_freezing. *)
Inductive mpc := MOff (j : nat) | MLb | MThaw (i : nat) | MWait.

Record st := mkSt {
  rounds : list round;      (* the current one first *)
  mp : mpc;
  next : nat;               (* number of the next task *)
  inq : list msg;           (* input channel of the farm *)
  running : nat;
  lp : lpc;
  lfz : bool;
  frozen : bool;            (* field frozen of the scheduler thread *)
  nwc : nat;                (* local variable nw of the loop *)
  numtasks : nat;
  eosreceived : bool;
  ws : nat -> worker;
  ran : list nat;           (* ghost: tasks run, last first *)
  freed : list nat;         (* ghost: closures deleted *)
  lost : bool }.            (* ghost: a thread was thawed while a thaw was pending *)

(** thaw of the load balancer, its first lines (ff/lb.hpp:1394-1400), for run() (taskf.hpp:179-182)
    and run_then_freeze (171-177). *)
Definition run_with (n : nat) (r : round) : nat :=
  let x := if early r then n else if 0 <? nw r then nw r else k r in
  if n <? x then n else x.

Definition start (r : round) : mpc := if early r then MLb else MOff 0.
Definition init (l : list round) : st :=
  mkSt l (match l with [] => MWait | r :: _ => start r end) 0 [] 0 LSleep false true 0 0 false
    (fun _ => worker0) [] [] false.

Definition updw (f : nat -> worker) (i : nat) (w : worker) : nat -> worker := fun j => if j =? i then w else f j.

Definition set_main (s : st) r p := mkSt r p (next s) (inq s) (running s) (lp s) (lfz s) (frozen s) (nwc s) (numtasks s) (eosreceived s) (ws s) (ran s) (freed s) (lost s).
Definition set_in (s : st) n q := mkSt (rounds s) (mp s) n q (running s) (lp s) (lfz s) (frozen s) (nwc s) (numtasks s) (eosreceived s) (ws s) (ran s) (freed s) (lost s).
Definition set_thaw (s : st) m := mkSt (rounds s) (mp s) (next s) (inq s) m (lp s) true false (nwc s) (numtasks s) (eosreceived s) (ws s) (ran s) (freed s) (lost s).
Definition set_lp (s : st) p := mkSt (rounds s) (mp s) (next s) (inq s) (running s) p (lfz s) (frozen s) (nwc s) (numtasks s) (eosreceived s) (ws s) (ran s) (freed s) (lost s).
Definition set_cnt (s : st) c n e := mkSt (rounds s) (mp s) (next s) (inq s) (running s) (lp s) (lfz s) (frozen s) c n e (ws s) (ran s) (freed s) (lost s).
Definition set_w (s : st) i w := mkSt (rounds s) (mp s) (next s) (inq s) (running s) (lp s) (lfz s) (frozen s) (nwc s) (numtasks s) (eosreceived s) (updw (ws s) i w) (ran s) (freed s) (lost s).
Definition set_freeze (s : st) z f := mkSt (rounds s) (mp s) (next s) (inq s) (running s) (lp s) z f (nwc s) (numtasks s) (eosreceived s) (ws s) (ran s) (freed s) (lost s).
Definition add_ran (s : st) t := mkSt (rounds s) (mp s) (next s) (inq s) (running s) (lp s) (lfz s) (frozen s) (nwc s) (numtasks s) (eosreceived s) (ws s) (t :: ran s) (freed s) (lost s).
Definition add_freed (s : st) t := mkSt (rounds s) (mp s) (next s) (inq s) (running s) (lp s) (lfz s) (frozen s) (nwc s) (numtasks s) (eosreceived s) (ws s) (ran s) (t :: freed s) (lost s).
Definition set_lost (s : st) b := mkSt (rounds s) (mp s) (next s) (inq s) (running s) (lp s) (lfz s) (frozen s) (nwc s) (numtasks s) (eosreceived s) (ws s) (ran s) (freed s) b.

(** [Main]: the user's thread; [LIn], [LBack i]: the scheduler reads its input, the channel from
    worker i; [LPut i]: it sends the task to worker i; [LStep]: its next step otherwise;
    [WStep i]: worker i. *)
Inductive act := Main | LIn | LBack (i : nat) | LPut (i : nat) | LStep | WStep (i : nat).

Section Step.
  Variable n : nat.               (* number of workers *)
  Variable cap : option nat.      (* capacity of the channel to a worker, None: unbounded *)

  Definition room (w : worker) : bool := match cap with None => true | Some c => length (wq w) <? c end.
  Definition push (w : worker) (m : msg) : worker := mkW (pc w) (fz w) (wq w ++ [m]) (fb w).

  (** The user's thread: AddTask (taskf.hpp:151-160), the end mark (offload(EOS)), thaw of the
      scheduler and of the workers (lb.hpp:1394-1400, node.hpp:417-432), wait_freezing of the
      scheduler's thread (lb.hpp:1299-1306, node.hpp:403-408). *)
  Definition main_step (s : st) : option st :=
    match rounds s with
    | [] => None
    | r :: rs =>
        match mp s with
        | MOff j =>
            if j <? k r then Some (set_main (set_in s (S (next s)) (inq s ++ [Tsk (next s)])) (rounds s) (MOff (S j)))
            else Some (set_main (set_in s (next s) (inq s ++ [Eos])) (rounds s) (if early r then MWait else MLb))
        | MLb =>
            let m := run_with n r in
            Some (set_main (set_thaw s m) (rounds s) (if 0 <? m then MThaw 0 else if early r then MOff 0 else MWait))
        | MThaw i =>
            let w := ws s i in
            let s' := set_lost (set_w s i (mkW (pc w) true (wq w) (fb w))) (lost s || fz w) in
            Some (set_main s' (rounds s) (if S i <? running s then MThaw (S i) else if early r then MOff 0 else MWait))
        | MWait =>
            if frozen s then Some (set_main s rs (match rs with [] => MWait | r' :: _ => start r' end)) else None
        end
    end.

  (** One end mark more has been received (lb.hpp:1054-1066). *)
  Definition count_eos (s : st) : st :=
    let s' := set_cnt s (pred (nwc s)) (numtasks s) (eosreceived s) in
    set_lp s' (if nwc s =? 1 then LEnd else LRun).

  (** The scheduler begins a run (taskf.hpp:80, lb.hpp:986-1021). *)
  Definition begin_run (s : st) : st := set_freeze (set_lp (set_cnt s (S (running s)) 0 false) LRun) false (frozen s).

  (** The scheduler reads its input: Scheduler::svc and eosnotify (taskf.hpp:82-93, 98-103) in the
      loop of the load balancer (lb.hpp:1023-1100).  With no running worker collect_task increments
      and dereferences the end iterator of an empty queue (lb.hpp:312-322). *)
  Definition lin_step (s : st) : option st :=
    match lp s with
    | LRun =>
        if running s =? 0 then Some (set_lp s LUb)
        else match inq s with
             | Tsk t :: q => Some (set_lp (set_cnt (set_in s (next s) q) (nwc s) (S (numtasks s)) (eosreceived s)) (LSend t))
             | Eos :: q =>
                 let s' := set_cnt (set_in s (next s) q) (nwc s) (numtasks s) true in
                 Some (if numtasks s =? 0 then set_lp s' (LCast Eos (seq 0 (running s)) []) else count_eos s')
             | GoOut :: q => Some (set_lp (set_in s (next s) q) LEnd)
             | [] => None
             end
    | _ => None
    end.
  (** A message from a worker; numtasks is unsigned and must not be decremented at 0. *)
  Definition lback_step (s : st) (i : nat) : option st :=
    match lp s with
    | LRun =>
        if i <? running s then
          let w := ws s i in
          match fb w with
          | Tsk t :: q =>
              let s' := add_freed (set_w s i (mkW (pc w) (fz w) (wq w) q)) t in
              match numtasks s with
              | 0 => Some (set_lp s' LUb)
              | S c =>
                  let s' := set_cnt s' (nwc s) c (eosreceived s) in
                  Some (if (c =? 0) && eosreceived s then set_lp s' (LCast GoOut (seq 0 (running s)) []) else s')
              end
          | Eos :: q => Some (count_eos (set_w s i (mkW (pc w) (fz w) (wq w) q)))
          | GoOut :: q => Some (set_lp (set_w s i (mkW (pc w) (fz w) (wq w) q)) LEnd)
          | [] => None
          end
        else None
    | _ => None
    end.
  (** schedule_task (lb.hpp:235-291). *)
  Definition lput_step (s : st) (i : nat) : option st :=
    match lp s with
    | LSend t =>
        if (i <? running s) && room (ws s i) then Some (set_lp (set_w s i (push (ws s i) (Tsk t))) LRun) else None
    | _ => None
    end.
  (** broadcast_task (lb.hpp:777-809); what follows it: Scheduler::svc returns GO_OUT, or the end
      mark that was received is counted.  The end of the loop and the freezing of the thread
      (node.hpp:276-290). *)
  Definition lstep_step (s : st) : option st :=
    match lp s with
    | LSleep => if lfz s then Some (begin_run s) else None
    | LCast m (i :: todo) retry =>
        if room (ws s i) then Some (set_lp (set_w s i (push (ws s i) m)) (LCast m todo retry))
        else Some (set_lp s (LCast m todo (i :: retry)))
    | LCast m [] (i :: retry) =>
        if room (ws s i) then Some (set_lp (set_w s i (push (ws s i) m)) (LCast m [] retry)) else None
    | LCast m [] [] => Some (match m with Eos => count_eos s | _ => set_lp s LEnd end)
    | LEnd => Some (if lfz s then begin_run s else set_freeze (set_lp s LSleep) false true)
    | _ => None
    end.
  (** A worker (node.hpp:1420-1500) and the freezing of its thread. *)
  Definition w_step (s : st) (i : nat) : option st :=
    if negb (i <? n) then None
    else
      let w := ws s i in
      match pc w with
      | WSleep => if fz w then Some (set_w s i (mkW WRun false (wq w) (fb w))) else None
      | WRun =>
          match wq w with
          | Tsk t :: q => Some (set_w s i (mkW (WHas t) (fz w) q (fb w)))
          | Eos :: q => Some (set_w s i (mkW WEnd (fz w) q (fb w ++ [Eos])))
          | GoOut :: q => Some (set_w s i (mkW WEnd (fz w) q (fb w)))
          | [] => None
          end
      | WHas t => Some (add_ran (set_w s i (mkW WRun (fz w) (wq w) (fb w ++ [Tsk t]))) t)
      | WEnd => Some (set_w s i (if fz w then mkW WRun false (wq w) (fb w) else mkW WSleep false (wq w) (fb w)))
      end.

  Definition step (s : st) (a : act) : option st :=
    match a with
    | Main => main_step s
    | LIn => lin_step s
    | LBack i => lback_step s i
    | LPut i => lput_step s i
    | LStep => lstep_step s
    | WStep i => w_step s i
    end.
End Step.
