(** Model of the ordered farm with on-demand scheduling: sequence numbers and reordering.
    Source: /repo/ff/ordering_policies.hpp, with /repo/ff/farm.hpp L249-L263 and
    /repo/ff/combine.hpp L1198-L1204 for the sizes and the use.

    The load balancer stores each task with its number in the next element of a ring [_M] and sends the
    address of that element; workers replace the task by their result in place; the gatherer reorders.
    Which worker gets a task, and when, is irrelevant to the order: pointers that wait for or are with a
    worker are in [todo], pointers in the workers' output queues are in [doneq], and any of them may move
    next (this includes every on-demand schedule and every arrival order at the gatherer).
    Not modelled: the order inside one worker's queues (more interleavings are allowed here), all_gather,
    broadcast, workers that return special values, the end-of-stream protocol (C19). *)
From Coq Require Import List Arith Bool.
From Verif Require Import Base.
Import ListNotations.

Section Ondem.
  Context {V : Type}.
  Variable M : nat.          (* _M_size *)
  Variable f : V -> V.       (* the workers' svc *)
  Variable wrapper : bool.   (* false: ordered_gt; true: OrderedCollectorWrapper *)

  (** ordered_lb L82-L85, ordered_gt L136-L138.  [sent] is a history variable; [out] the output. *)
  Record ost := mkO {
    mem : nat -> nat * V; idx : nat; cnt : nat;
    todo : list nat; doneq : list nat;
    heap : list nat; gcnt : nat;
    sent : list V; out : list V }.

  (** ordered_lb::init L57-L59, ordered_gt::init L96. *)
  Definition init (m : nat -> nat * V) : ost := mkO m 0 0 [] [] [] 0 [] [].

  (** ordered_lb::schedule_task, L60-L67 (also OrderedEmitterWrapper::svc, L173-L180). *)
  Definition send (s : ost) (x : V) : ost :=
    mkO (fupd (mem s) (idx s) (cnt s, x)) ((idx s + 1) mod M) (S (cnt s))
        (todo s ++ [idx s]) (doneq s) (heap s) (gcnt s) (sent s ++ [x]) (out s).

  Definition drop (i : nat) (l : list nat) : list nat := firstn i l ++ skipn (S i) l.

  (** OrderedWorkerWrapper::svc, L151-L156, on the [i]-th pending pointer. *)
  Definition work (s : ost) (i : nat) : option ost :=
    match nth_error (todo s) i with
    | None => None
    | Some p => Some (mkO (fupd (mem s) p (fst (mem s p), f (snd (mem s p)))) (idx s) (cnt s)
                          (drop i (todo s)) (doneq s ++ [p]) (heap s) (gcnt s) (sent s) (out s))
    end.

  (** std::priority_queue with PairCmp (L89-L93, L137, L190-L194): the top is an element with the
      smallest number. *)
  Fixpoint top (m : nat -> nat * V) (q : list nat) : option nat :=
    match q with
    | [] => None
    | p :: q => match top m q with
                | None => Some p
                | Some r => if fst (m p) <=? fst (m r) then Some p else Some r
                end
    end.
  Fixpoint remove1 (p : nat) (q : list nat) : list nat :=
    match q with
    | [] => []
    | r :: q => if r =? p then q else r :: remove1 p q
    end.

  (** The top of the queue is the next to be sent: ordered_gt L98-L105, OrderedCollectorWrapper
      L206-L213. *)
  Definition pop_top (s : ost) : option ost :=
    match top (mem s) (heap s) with
    | Some p => if gcnt s =? fst (mem s p)
                then Some (mkO (mem s) (idx s) (cnt s) (todo s) (doneq s) (remove1 p (heap s)) (S (gcnt s))
                               (sent s) (out s ++ [snd (mem s p)]))
                else None
    | None => None
    end.

  (** ordered_gt::gather_task, L107-L121: a pointer [p] arrives. *)
  Definition arrive (s : ost) (p : nat) : ost :=
    if gcnt s =? fst (mem s p)
    then mkO (mem s) (idx s) (cnt s) (todo s) (doneq s) (heap s) (S (gcnt s)) (sent s) (out s ++ [snd (mem s p)])
    else mkO (mem s) (idx s) (cnt s) (todo s) (doneq s) (p :: heap s) (gcnt s) (sent s) (out s).

  (** The while loop of OrderedCollectorWrapper::svc, L205-L213. *)
  Fixpoint pop_all (fuel : nat) (s : ost) : ost :=
    match fuel with
    | 0 => s
    | S fuel => match pop_top s with Some s' => pop_all fuel s' | None => s end
    end.

  Inductive act := Send (x : V) | Work (i : nat) | Recv (i : nat) | Drain | NewRun.

  Definition step (s : ost) (a : act) : option ost :=
    match a with
    | Send x => Some (send s x)
    | Work i => work s i
    | Recv i =>
        match nth_error (doneq s) i with
        | None => None
        | Some p =>
            let s1 := mkO (mem s) (idx s) (cnt s) (todo s) (drop i (doneq s)) (heap s) (gcnt s) (sent s) (out s) in
            if wrapper then
              (* OrderedCollectorWrapper::svc, L200-L221: the queue is examined only after an emission *)
              if gcnt s =? fst (mem s p) then Some (pop_all (length (heap s)) (arrive s1 p)) else Some (arrive s1 p)
            else match pop_top s with      (* ordered_gt: the queue first, L98-L106 *)
                 | Some _ => None
                 | None => Some (arrive s1 p)
                 end
        end
    | Drain => if wrapper then None else pop_top s
    | NewRun =>
        (* A further run (run_then_freeze, thaw): svc_init of the collector.  ordered_gt has none of its
           own and ordered_lb::init is not called again; OrderedCollectorWrapper::svc_init, L196-L199,
           clears its counter. *)
        match todo s, doneq s with
        | [], [] => Some (mkO (mem s) (idx s) (cnt s) [] [] (heap s) (if wrapper then 0 else gcnt s) (sent s) (out s))
        | _, _ => None
        end
    end.

  (** The executions in which the ring is never overrun: a task is sent only when fewer than [M] tasks
      are between the emitter and the output. *)
  Definition gstep (s : ost) (a : act) : option ost :=
    match a with
    | Send _ => if length (sent s) - length (out s) <? M then step s a else None
    | _ => step s a
    end.
End Ondem.
Arguments ost : clear implicits.
Arguments act : clear implicits.
