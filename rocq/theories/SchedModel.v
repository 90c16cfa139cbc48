(** Model of the load balancer's routing: round robin, send to a worker, broadcast.
    Source: /repo/ff/lb.hpp.

    The workers' queues are read by concurrently running workers, so whether a [put] succeeds is
    decided by the environment: [ok t w] answers the [t]-th [put] of the balancer, addressed to
    worker [w].  All theorems quantify over [ok].  The loops are bounded by [fuel]; [None] means that
    the loop has not been left after [fuel] puts, so "never returns" is "[None] for every fuel".
    Not modelled: the waiting between rounds (losetime_out, timed wait), LB_CALLBACK, traces, and the
    condition variable signalled by put_done. *)
From Coq Require Import List ZArith.
Import ListNotations.

(** lb.hpp L1464-L1480 (fields): [nextw] is the worker selected last (-1 at start, L486);
    [clock] counts the puts done; [sent] lists, in order, the successful puts. *)
Record lb (T : Type) := mkLb { nextw : Z; clock : nat; sent : list (nat * T) }.
Arguments mkLb {T}. Arguments nextw {T}. Arguments clock {T}. Arguments sent {T}.

Section Sched.
  Context {T : Type}.
  Variable n : nat.                      (* running: number of workers *)
  Variable ok : nat -> nat -> bool.

  (** workers[w]->put(task) (called at L255, L282, L743, L761, L783, L789, L806, L810). *)
  Definition put (s : lb T) (w : nat) (x : T) : lb T * bool :=
    if ok (clock s) w then (mkLb (nextw s) (S (clock s)) (sent s ++ [(w, x)]), true)
    else (mkLb (nextw s) (S (clock s)) (sent s), false).

  (** selectworker, L161, and the assignment of its result to [nextw] at L249 and L277. *)
  Definition select (s : lb T) : lb T * nat :=
    let w := Z.modulo (nextw s + 1) (Z.of_nat n) in
    (mkLb w (clock s) (sent s), Z.to_nat w).

  (** schedule_task, blocking part, L244-L272.  [cnt] and [r] are the local variables; the two
      nested loops are one loop here, [cnt] going back to 0 where the inner loop is left (L261). *)
  Fixpoint sched_b (fuel : nat) (retry cnt r : nat) (x : T) (s : lb T) : option (lb T * bool) :=
    match fuel with
    | 0 => None
    | S fuel =>
        let (s, w) := select s in
        let (s, b) := put s w x in
        if b then Some (s, true)
        else
          let cnt := S cnt in
          if cnt =? n then
            let r := S r in
            if retry <=? r then Some (s, false) else sched_b fuel retry 0 r x s
          else sched_b fuel retry cnt r x s
    end.

  (** schedule_task, non-blocking part, L274-L292. *)
  Fixpoint sched_nb (fuel : nat) (retry cnt : nat) (x : T) (s : lb T) : option (lb T * bool) :=
    match fuel with
    | 0 => None
    | S fuel =>
        let (s, w) := select s in
        let (s, b) := put s w x in
        if b then Some (s, true)
        else
          let cnt := S cnt in
          if retry <=? cnt then Some (mkLb (-1) (clock s) (sent s), false)
          else if cnt =? n then sched_nb fuel retry 0 x s
          else sched_nb fuel retry cnt x s
    end.

  (** schedule_task, L240-L293. *)
  Definition schedule (blocking : bool) (fuel retry : nat) (x : T) (s : lb T) : option (lb T * bool) :=
    if blocking then sched_b fuel retry 0 0 x s else sched_nb fuel retry 0 x s.

  (** A stream of tasks scheduled one after the other (svc, L899-L975, calls schedule_task for each
      task that the emitter returns). *)
  Fixpoint schedule_all (blocking : bool) (fuel retry : nat) (xs : list T) (s : lb T) : option (lb T) :=
    match xs with
    | [] => Some s
    | x :: xs =>
        match schedule blocking fuel retry x s with
        | Some (s, _) => schedule_all blocking fuel retry xs s
        | None => None
        end
    end.

  (** ff_send_out_to, blocking part, L739-L757. *)
  Fixpoint send_to_b (fuel : nat) (retry r : nat) (w : nat) (x : T) (s : lb T) : option (lb T * bool) :=
    match fuel with
    | 0 => None
    | S fuel =>
        let (s, b) := put s w x in
        if b then Some (s, true)
        else
          let r := S r in
          if retry <=? r then Some (s, false) else send_to_b fuel retry r w x s
    end.

  (** ff_send_out_to, non-blocking part, L758-L770: [for(i=0;i<retry;++i)]. *)
  Fixpoint send_to_nb (retry : nat) (w : nat) (x : T) (s : lb T) : lb T * bool :=
    match retry with
    | 0 => (s, false)
    | S retry =>
        let (s, b) := put s w x in
        if b then (s, true) else send_to_nb retry w x s
    end.

  (** ff_send_out_to, L736-L771. *)
  Definition send_to (blocking : bool) (fuel retry w : nat) (x : T) (s : lb T) : option (lb T * bool) :=
    if blocking then send_to_b fuel retry 0 w x s else Some (send_to_nb retry w x s).

  (** broadcast_task, first loop, L781-L786 and L805-L808: the workers in increasing order; the ones
      that refuse are pushed at the back of [retry].  [retry] is kept with its back first. *)
  Fixpoint bcast_first (ws : list nat) (x : T) (s : lb T) (retry : list nat) : lb T * list nat :=
    match ws with
    | [] => (s, retry)
    | w :: ws =>
        let (s, b) := put s w x in
        bcast_first ws x s (if b then retry else w :: retry)
    end.

  (** broadcast_task, second loop, L787-L798 and L809-L813. *)
  Fixpoint bcast_retry (fuel : nat) (x : T) (s : lb T) (retry : list nat) : option (lb T) :=
    match retry with
    | [] => Some s
    | w :: rest =>
        match fuel with
        | 0 => None
        | S fuel =>
            let (s, b) := put s w x in
            bcast_retry fuel x s (if b then rest else retry)
        end
    end.

  (** broadcast_task, L778-L817. *)
  Definition broadcast (fuel : nat) (x : T) (s : lb T) : option (lb T) :=
    let (s, retry) := bcast_first (seq 0 n) x s [] in
    bcast_retry fuel x s retry.

  (** get_next_free_channel, L456-L470.  [free x w] answers the [x]-th test
      [buffersize() > length()] (L463), made on worker [w]; [bound] is the variable [attempts] ([None]
      stands for (size_t)-1, the argument [forever]).  C's remainder truncates: [Z.rem].
      The outer option is fuel, the inner one the result -1. *)
  Fixpoint next_free (free : nat -> nat -> bool) (fuel : nat) (bound : option nat) (x : nat) (s : lb T)
    : option (lb T * option nat) :=
    match fuel with
    | 0 => None
    | S fuel =>
        let nextone := Z.to_nat (Z.rem (nextw s + Z.of_nat x) (Z.of_nat n)) in
        if free x nextone then
          Some (mkLb (Z.rem (nextw s + Z.of_nat x - 1) (Z.of_nat n)) (clock s) (sent s), Some nextone)
        else
          let x := S x in
          match bound with
          | Some b => if x <=? b then next_free free fuel bound x s else Some (s, None)
          | None => next_free free fuel bound x s
          end
    end.

  Definition get_next_free (free : nat -> nat -> bool) (fuel : nat) (forever : bool) (s : lb T)
    : option (lb T * option nat) :=
    next_free free fuel (if forever then None else Some n) 1 s.
End Sched.

(** Constructor, lb.hpp L486 (nextw(-1)): a balancer that has sent nothing. *)
Definition lb_init {T} : lb T := mkLb (-1) 0 [].
